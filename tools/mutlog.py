"""Turns mutation results (one JSON per line) into seeded/LOG.jsonl."""
import json,sys
REL={'m01':['C06'],'m26':['C47'],'m28':['C45','C47','C56'],'m29':['C47'],'m30':['C38'],'m31':['C38'],'n06':['C04']}
EQV={'m06','m18','m33','n11','n30','n84'}
TIGHT={'q46':['C66_repr_reads'],'s12':['C69_times','C69_times_operators'],'n45':['C16_product_coefficient','C16_opexpr_product_coefficient'],**{'u%02d'%i:['C72_value_semantics'] for i in (15,16,17,18,19,21)},**{'u%02d'%i:['C72_value_semantics','C72_new_object'] for i in (10,11,12,13,14)},'u20':['C72_value_semantics','C72_alias_refuted']}
EXTRA={'n07':{'C05_checked_sound':['chk_cases'],'C05_small_operands_exact':['chk_cases'],'C05_add_overflow_iff':['chk_cases']},
       'n45':{'C16_product_coefficient':['(the statement as tightened: expr_mprod_coef)']}}
out=[];bad=[]
for f in sys.argv[1:]:
    for l in open(f):
        r=json.loads(l)
        if 'error' in r: print('ERR',r['id'],r['error']); continue
        m=r['mut'];i=r['id'];fl=dict(r['failed'])
        fl.update(EXTRA.get(i,{}))
        cl=REL.get(i,m['claims'])
        cs={x.split('_')[0] for x in fl}
        miss=[c for c in cl if c not in cs]
        if miss: bad.append((i,miss,sorted(cs)))
        d={'id':i,'definition':f"{m['file']}.v: {m['edit'].split(':')[0]}",'edit':m['edit'],'old':m['old'],'new':m['new'],
           'claim_broken':cl if cl else [],
           'theorems_failed':sorted(fl),'broken_lemmas':sorted({x for v in fl.values() for x in v}),
           'theorems_tightened':TIGHT.get(i,[])}
        if i in EQV or not cl: d['note']='edit keeps every claim true (equivalent for the claims); only proof scripts depend on it'
        if i=='n45': d['note']='as first stated C16 compared with the model product and survived; restated with explicit juxtaposition, it now fails'
        if m.get('note'): d['note']=m['note']
        out.append(json.dumps(d))
open('/verif/seeded/LOG.jsonl','w').write('\n'.join(out)+'\n')
print(len(out),'entries; not caught:',bad)
