(** Specification for C70: how much too large the weights of repeated contractions are. *)
From Coq Require Import ZArith List Arith.
From Verif Require Import Res RegistryModel CoreModel OperatorModel WickSearchModel WickSearchSpec CountSpec WickCombSpec WickEvalModel.
Import ListNotations.
Local Open Scope Z_scope.
(** The product of (m - 1)! over the numbers m of equal contractions in [cs]. *)
Definition repetition_weight (cs : list econ) : Z := prod_mult cs (fun m => fact (m - 1)).
(** The number of operators that are left over. *)
Definition left_after (ops : oprod) (cs : list econ) : Z := ops_rank ops - total_of ec_num_ops cs.
(** Every selection of contractions that leaves between [minr] and [maxr] operators has the weight [w]. *)
Definition uniform_weight (st : osi) (maxc : Z) (ops : oprod) (minr maxr w : Z) : Prop :=
  forall cs, Forall (allowed st maxc ops) cs -> enough_legs st ops cs -> minr <= left_after ops cs <= maxr -> repetition_weight cs = w.
