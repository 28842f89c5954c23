(** Model of printing and parsing: rationals (wicked/helpers/rational.cc), indices (wicked/algebra/index.cc) and tensors
    (wicked/algebra/tensor.cc), with a model of the part of [std::regex] they use. *)
From Coq Require Import ZArith List Bool Ascii.
From Verif Require Import Res RegistryModel CoreModel RationalModel DecModel.
Import ListNotations.
Local Open Scope Z_scope.
Local Open Scope res_scope.

(** ** Regular expressions *)
(** Not functions of /repo: [std::regex] (ECMAScript) restricted to what the patterns use.  Repetition is greedy, of
    character classes or of groupless patterns that do not match the empty string. *)
Inductive re :=
| RCls (p : ascii -> bool)      (* one character *)
| RStar (p : ascii -> bool)     (* p* *)
| RPlus (p : ascii -> bool)     (* p+ *)
| ROpt (r : re)                 (* r? *)
| RSeq (r1 r2 : re)
| RGrp (r : re)                 (* (r) *)
| RMany (r : re).               (* (?:r)+ *)
Fixpoint groups (r : re) : nat :=
  match r with RCls _ | RStar _ | RPlus _ => 0 | ROpt r => groups r | RSeq a b => groups a + groups b | RGrp r => S (groups r) | RMany _ => 0 end.
(** The ways to split off a run of characters of a class, the longest first. *)
Fixpoint runs (p : ascii -> bool) (s : text) : list (text * text) :=
  match s with
  | [] => [([], [])]
  | c :: s' => if p c then map (fun x => (c :: fst x, snd x)) (runs p s') ++ [([], s)] else [([], s)]
  end.
(** All matches of a prefix of [s] in the order in which the backtracking matcher tries them: what the groups captured (an empty
    string for a group that took no part), and what is left. *)
Fixpoint matches (r : re) (s : text) : list (list text * text) :=
  match r with
  | RCls p => match s with c :: s' => if p c then [([], s')] else [] | [] => [] end
  | RStar p => map (fun x => ([], snd x)) (runs p s)
  | RPlus p => map (fun x => ([], snd x)) (filter (fun x => match fst x with [] => false | _ => true end) (runs p s))
  | ROpt r => matches r s ++ [(repeat [] (groups r), s)]
  | RSeq a b => flat_map (fun x => map (fun y => (fst x ++ fst y, snd y)) (matches b (snd x))) (matches a s)
  | RGrp r => map (fun x => (firstn (length s - length (snd x)) s :: fst x, snd x)) (matches r s)
  | RMany r =>
      (fix many (fuel : nat) (s : text) : list (list text * text) :=
         match fuel with
         | O => []
         | S f => flat_map (fun x => many f (snd x) ++ [([], snd x)]) (matches r s)
         end) (length s) s
  end.
(** [std::regex_match]: the first match of the whole string. *)
Definition regex_match (r : re) (s : text) : option (list text) :=
  option_map fst (find (fun x => match snd x with [] => true | _ => false end) (matches r s)).
Fixpoint rseq (l : list re) : re := match l with [] => RStar (fun _ => false) | [r] => r | r :: l => RSeq r (rseq l) end.

(** Character classes in the "C" locale: [\s], [a-zA-Z], [a-zA-Z0-9], [\w]. *)
Definition is_ws (c : ascii) : bool := let n := Z.of_N (N_of_ascii c) in ((9 <=? n) && (n <=? 13)) || (n =? 32).
Definition is_alpha (c : ascii) : bool := let n := Z.of_N (N_of_ascii c) in ((65 <=? n) && (n <=? 90)) || ((97 <=? n) && (n <=? 122)).
Definition is_alnum (c : ascii) : bool := is_alpha c || is_digit c.
Definition is_word (c : ascii) : bool := is_alnum c || Ascii.eqb c "_".
Definition is_chr (a : ascii) (c : ascii) : bool := Ascii.eqb c a.

(** [std::stoi] of a run of digits: [std::invalid_argument] if empty, [std::out_of_range] if it does not fit an [int]. *)
Definition max_int : Z := 2147483647.
Definition stoi (s : text) : res Z := match s with [] => Throw | _ => if dec_value s <=? max_int then Ok (dec_value s) else Throw end.

(** ** Rationals *)
(** rational.cc:72-102.  [std::to_string] / [boost::lexical_cast]: [dec_text]. *)
Definition rat_str (r : rational) (sign : bool) : text :=
  if num r =? 0 then ["0"%char]
  else (if sign && (0 <? num r) then ["+"%char] else []) ++
    (if den r =? 1 then (if num r =? -1 then ["-"%char] else if negb (num r =? 1) then dec_text (num r) else [])
     else dec_text (num r) ++ ["/"%char] ++ dec_text (den r)).
(** rational.cc:209. *)
Definition rational_re : re :=
  rseq [RStar is_ws; ROpt (RGrp (RCls (fun c => is_chr "+" c || is_chr "-" c))); ROpt (RGrp (RStar is_digit)); ROpt (RGrp (RCls (is_chr "/")));
        ROpt (RGrp (RStar is_digit)); RStar is_ws].
(** rational.cc:207-237.  The [int] products cannot overflow: one factor is 1 or -1 and [stoi] is non-negative. *)
Definition make_rational (s : text) : res rational :=
  match regex_match rational_re s with
  | Some [sign; n; division; d] =>
      let numerator := if text_eqb sign ["-"%char] then -1 else 1 in
      if negb (length division =? 0)%nat && ((length n =? 0)%nat || (length d =? 0)%nat) then Throw
      else
        numerator <- (if (0 <? length n)%nat then (v <- stoi n ;; Ok (numerator * v)) else Ok numerator) ;;
        denominator <- (if text_eqb division ["/"%char] && (0 <? length d)%nat then stoi d else Ok 1) ;;
        Ok (rat_make numerator denominator)
  | _ => Throw
  end.

(** ** Indices *)
(** index.cc:20-22 ([std::to_string] of the position). *)
Definition index_str (st : osi) (i : index) : res text := l <- space_label st (isp i) ;; Ok (l :: dec_text (ipos i)).
(** index.cc:56-67. *)
Definition index_re : re := rseq [RGrp (RCls is_alpha); ROpt (RCls (is_chr "_")); RGrp (RPlus is_digit)].
Definition make_index (st : osi) (s : text) : res index :=
  match regex_match index_re s with
  | Some [label; p] => sp <- label_to_space st (hd zero label) ;; p <- stoi p ;; Ok (mkI sp p)
  | _ => Throw
  end.
(** helpers.cc:27-43 (in the "C" locale). *)
Fixpoint ltrim (s : text) : text := match s with c :: s' => if is_ws c then ltrim s' else s | [] => [] end.
Definition trim (s : text) : text := ltrim (rev (ltrim (rev s))).
(** [std::getline(f, s, ',')] until the stream is exhausted (helpers.cc:78-81): no piece after a final comma, none for [""]. *)
Fixpoint pieces (s cur : text) : list text :=
  match s with
  | [] => match cur with [] => [] | _ => [rev cur] end
  | c :: s' => if Ascii.eqb c "," then rev cur :: pieces s' [] else pieces s' (c :: cur)
  end.
(** helpers.cc:73-84. *)
Definition split_indices (s : text) : list text := map trim (pieces s []).
(** index.cc:69-76. *)
Definition make_indices (st : osi) (s : text) : res (list index) := mapM (make_index st) (split_indices s).
(** orbital_space.cc:124-130, index.cc:24-26.  [idx < index_labels.size()] compares as unsigned: false for a negative position. *)
Definition index_latex (st : osi) (i : index) : res text :=
  names <- space_indices st (isp i) ;;
  if (0 <=? ipos i) && (ipos i <? Z.of_nat (length names)) then Ok (nth (Z.to_nat (ipos i)) names [])
  else (l <- space_label st (isp i) ;; Ok (l :: ["_"; "{"]%char ++ dec_text (ipos i) ++ ["}"%char])).

(** ** Tensors *)
(** helpers.cc:11-23. *)
Fixpoint join (l : list text) (sep : text) : text := match l with [] => [] | [x] => x | x :: l' => x ++ sep ++ join l' sep end.
(** tensor.cc:100-111. *)
Definition tensor_str (st : osi) (t : tensor) : res text :=
  u <- mapM (index_str st) (t_upper t) ;; l <- mapM (index_str st) (t_lower t) ;;
  Ok (t_label t ++ ["^"; "{"]%char ++ join u [","%char] ++ ["}"; "_"; "{"]%char ++ join l [","%char] ++ ["}"%char]).
(** tensor.cc:181-195. *)
Definition list_char (c : ascii) : bool := is_word c || Ascii.eqb c "," || is_ws c.
Definition tensor_re : re :=
  rseq [RGrp (RPlus is_alnum); RCls (is_chr "^"); RCls (is_chr "{"); RGrp (RStar list_char); RCls (is_chr "}"); RCls (is_chr "_"); RCls (is_chr "{");
        RGrp (RStar list_char); RCls (is_chr "}")].
Definition make_tensor (st : osi) (s : text) (sym : symmetry) : res tensor :=
  match regex_match tensor_re s with
  | Some [label; upper; lower] => u <- make_indices st upper ;; l <- make_indices st lower ;; Ok (mkT label l u sym false)
  | _ => Throw
  end.
