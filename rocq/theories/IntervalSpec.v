(** Specification side for intervals: what an interval library must guarantee, and
    the values of an expression with intervals in it. *)
From Coq Require Import ZArith Reals String.
From Verif Require Import Outcome ExprModel CtModel CtSpec IntervalModel.
Open Scope R_scope.

(** The inclusion property of interval arithmetic: whatever point the operands
    contain, the result contains the result for those points, if there is one. *)
Definition inclusion (L : interval_lib) : Prop :=
  (forall o v w z a b c, i_op L o v w = Ret z -> contains L v a -> contains L w b ->
     binary_value o a b = Some c -> contains L z c) /\
  (forall o v q z a c, i_op_num L o v q = Ret z -> contains L v a ->
     binary_value o a q = Some c -> contains L z c) /\
  (forall o q w z b c, num_op_i L o q w = Ret z -> contains L w b ->
     binary_value o q b = Some c -> contains L z c) /\
  (forall v z a, i_neg L v = Ret z -> contains L v a -> contains L z (- a)) /\
  (forall v z a, i_abs L v = Ret z -> contains L v a -> contains L z (Rabs a)).

(** [v] is a value of [e]: each interval in it may stand for any of its points. *)
Fixpoint ival (L : interval_lib) (ok : R -> Prop) (rho : string -> R) (e : iexpr L) (v : R) : Prop :=
  match e with
  | IC _ n d => d <> 0%Z /\ v = IZR n / IZR d
  | INum _ (RInt z) => v = IZR z
  | INum _ (RDbl r) => v = r
  | IIvl _ w => contains L w v
  | IVar _ x => v = rho x
  | IUn _ o a => exists u, ival L ok rho a u /\ unary_value ok o u v
  | IBin _ o l r => exists u w, ival L ok rho l u /\ ival L ok rho r w /\ binary_value o u w = Some v
  end.

(** as [no_truncation]: no int, or no division *)
Fixpoint i_no_truncation (L : interval_lib) (ints : bool) (e : iexpr L) : Prop :=
  match e with
  | INum _ (RInt _) => ints = true
  | IUn _ _ a => i_no_truncation L ints a
  | IBin _ o l r => (o = ODiv -> ints = false) /\ i_no_truncation L ints l /\ i_no_truncation L ints r
  | _ => True
  end.

(** Expressions built from the variable x and doubles with + - * /, unary - and
    abs. *)
Fixpoint arithmetic_in (x : string) (f : cexpr) : Prop :=
  match f with
  | TNum (RDbl _) => True
  | TVar y => y = x
  | TUn o a => (o = UNeg \/ o = UAbs) /\ arithmetic_in x a
  | TBin o l r => o <> OPow /\ arithmetic_in x l /\ arithmetic_in x r
  | _ => False
  end.
