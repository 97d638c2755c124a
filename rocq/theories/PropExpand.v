(** C63: expand. *)
From Coq Require Import ZArith Reals Lia Lra Bool List String.
From Verif Require Import Outcome Num PolySpec PolyModel PolyBase ExprModel ExprSpec CtModel CtSpec CtProofs PropCt ExpandModel ExpandSpec ExpandProofs ExpandTerm.
Import ListNotations.
Open Scope R_scope.

Local Notation x := (XVar "x").
Local Notation y := (XVar "y").

(** simplify, N and expand keep the value of an expression with polynomials, unless
    an integer division would truncate or expressions in different variables are
    multiplied. *)
Theorem C63_expand_keeps_values : forall (cfg : config) (fuel : nat) (ints : bool) (e e' : pexpr) (rho : string -> R) (v : R),
  xsimp cfg fuel e = Ret (Some e') -> untruncated ints e -> unmixed e ->
  xvalue off_table rho e v -> xvalue off_table rho e' v.
Proof.
  intros cfg fuel ints e e' rho v H U M V. destruct (xsimp_keeps off_table ints table_off cfg fuel e e' H (conj U M)) as (_ & _ & K). auto.
Qed.
Print Assumptions C63_expand_keeps_values.

(** On a polynomial expression expand ends; the result is one polynomial, a number
    for a constant or number, or a power of x for the bare products of powers of x. *)
Theorem C63_expand_ends : forall (x : string) (e : pexpr), poly_expression x e ->
  exists (fuel0 : nat) (r : pexpr), (forall fuel, (fuel0 <= fuel)%nat -> try_expand fuel e = Ret r) /\
    ((exists c, r = XPoly x c) \/
     (~ plain e /\ exists k, r = XNum k) \/
     (power_product x e /\ exists p, (2 <= p)%Z /\ r = XBin OPow (XVar x) (XC p 1))).
Proof.
  intros z e H. destruct (collects z e H) as (q & (r & Er & -> & N) & L & F & D & _).
  destruct (try_ev e r Er) as [n Hn]. exists n, (final e r). split; [exact Hn|].
  destruct (lit_plain e) as [Le|Pe].
  - right. left. split; [|auto]. destruct e; auto.
  - destruct D as [D|[D|D]]; [auto|destruct e; contradiction|]. destruct (F Pe) as [c|p Hp]; [eauto|]. right. right. eauto.
Qed.
Print Assumptions C63_expand_ends.

Lemma poly_unmixed z e : poly_expression z e -> incl (xvars e) [z] /\ unmixed e.
Proof.
  induction 1 as [|c Hc|k|n d Hd|a Pa Na Ha [V M]|o l r Ho P L0 R0 U Hl [Vl Ml] Hr [Vr Mr]|l k Pl Hk Hl [V M]|a p Pa Hp Ha [V M]]; cbn [xvars unmixed].
  - split; [apply incl_refl|exact I].
  - split; [apply incl_refl|exact I].
  - split; [apply incl_nil_l|exact I].
  - split; [apply incl_nil_l|exact I].
  - auto.
  - assert (I : incl (xvars l ++ xvars r) [z]) by (apply incl_app; auto). split; [exact I|].
    split; auto. split; auto. split; [|intros ->; destruct Ho as [E|[E|E]]; discriminate].
    intros _ p q Hp Hq. cbn [xvars] in Hp, Hq. apply I in Hp, Hq. cbn in Hp, Hq. intuition congruence.
  - assert (K : xvars k = [] /\ unmixed k) by (destruct k as [| | | | |]; try contradiction; split; auto; exact I). destruct K as [K1 K2].
    rewrite K1, app_nil_r. split; auto. split; auto. split; auto. split; discriminate.
  - rewrite app_nil_r. split; auto. split; auto. split; [exact I|]. split; [discriminate|].
    intros _ q q' Hq Hq'. apply V in Hq, Hq'. cbn in Hq, Hq'. intuition congruence.
Qed.

(** The polynomial has the values of the expression. *)
Theorem C63_expand_polynomial : forall (x : string) (ints : bool) (e : pexpr),
  poly_expression x e -> plain e -> ~ power_product x e -> untruncated ints e ->
  exists (fuel0 : nat) (c : list rnum), (forall fuel, (fuel0 <= fuel)%nat -> try_expand fuel e = Ret (XPoly x c)) /\
    forall rho v, xvalue off_table rho e v -> v = pval (map num_value c) (rho x).
Proof.
  intros z ints e H P B U. destruct (C63_expand_ends z e H) as (n & r & Hn & [[c ->]|[[N _]|[N _]]]); [|contradiction..].
  exists n, c. split; [exact Hn|]. intros rho v V. specialize (Hn n (Nat.le_refl _)). unfold try_expand, xtry in Hn.
  apply obind_ret in Hn as ([q|] & Hq & E).
  - injection E as ->. apply (C63_expand_keeps_values _ _ _ _ _ _ _ Hq U) in V; [exact V|]. eapply poly_unmixed; eauto.
  - injection E as ->. exact V.
Qed.
Print Assumptions C63_expand_polynomial.

(** Two polynomial expressions with the same value everywhere expand to polynomials
    with the same value everywhere: expand((x+2)^3) and expand((x+2)(x+2)(x+2)). *)
Corollary C63_same_function : forall (x : string) (ints ints' : bool) (e e' : pexpr),
  poly_expression x e -> plain e -> ~ power_product x e -> untruncated ints e ->
  poly_expression x e' -> plain e' -> ~ power_product x e' -> untruncated ints' e' ->
  (forall t, exists v, xvalue off_table (fun _ => t) e v /\ xvalue off_table (fun _ => t) e' v) ->
  exists fuel0 c c', (forall fuel, (fuel0 <= fuel)%nat -> try_expand fuel e = Ret (XPoly x c) /\ try_expand fuel e' = Ret (XPoly x c')) /\
    forall t, pval (map num_value c) t = pval (map num_value c') t.
Proof.
  intros z i i' e e' H1 P1 B1 U1 H2 P2 B2 U2 S.
  destruct (C63_expand_polynomial z i e H1 P1 B1 U1) as (n & c & Hn & Hc), (C63_expand_polynomial z i' e' H2 P2 B2 U2) as (n' & c' & Hn' & Hc').
  exists (max n n'), c, c'. split; [intros fuel Hf; split; [apply Hn|apply Hn']; lia|].
  intros t. destruct (S t) as (v & V & V'). apply Hc in V. apply Hc' in V'. cbn beta in V, V'. congruence.
Qed.
Print Assumptions C63_same_function.

(** *** Examples: the project's tests *)
Local Notation i z := (XNum (RInt z)).
Local Notation two := (XC 2 1).
Definition cubic : pexpr := XBin OPow (XBin OAdd x (i 2)) (XC 3 1).
Example C63_tests :
  try_expand 9 (XBin OMul (XBin OMul x x) x) = Ret (XPoly "x" (map RInt [0; 0; 0; 1]%Z)) /\
  try_expand 9 (XBin OAdd x (i 3)) = Ret (XPoly "x" (map RInt [3; 1]%Z)) /\
  try_expand 9 (XBin OMul (XBin OMul (i 2) x) x) = Ret (XPoly "x" (map RInt [0; 0; 2]%Z)) /\
  try_expand 9 (XBin OMul (XBin OMul y y) (i 2)) = Ret (XPoly "y" (map RInt [0; 0; 2]%Z)) /\
  try_expand 9 (XBin OAdd (XBin OAdd (XBin OMul (XFun FNeg x) x) x) (i 3)) = Ret (XPoly "x" (map RInt [3; 1; -1]%Z)) /\
  try_expand 9 cubic = Ret (XPoly "x" (map RInt [8; 12; 6; 1]%Z)) /\
  try_expand 9 (XBin OMul (XBin OMul (XBin OAdd x (i 2)) (XBin OAdd x (i 2))) (XBin OAdd x (i 2))) = Ret (XPoly "x" (map RInt [8; 12; 6; 1]%Z)) /\
  (exists c, try_expand 9 (XBin OAdd (XBin OSub (XNum (RDbl 2)) x) (XBin OMul x x)) = Ret (XPoly "x" (map RDbl c)) /\ c = [2; -1; 1]) /\
  (exists c, try_expand 9 (XBin ODiv (XPoly "x" (map RDbl [3; 1])) (XNum (RDbl (1 / 2)))) = Ret (XPoly "x" (map RDbl c)) /\ c = [6; 2]).
Proof.
  repeat split; try (lazy; reflexivity).
  - exists [2 - 0 + 0; 0 - 1 + 0; 0 + 1]. split; [lazy -[Rplus Rmult Rminus Ropp Rdiv Rinv IZR INR]; reflexivity|]. repeat f_equal; ring.
  - exists [0 + 3 / (1 / 2); 0 + 1 / (1 / 2)]. split; [lazy -[Rplus Rmult Rminus Ropp Rdiv Rinv IZR INR]; reflexivity|]. repeat f_equal; field.
Qed.
Example C63_hypotheses : poly_expression "x" cubic /\ plain cubic /\ ~ power_product "x" cubic /\ untruncated true cubic /\ unmixed cubic /\
  xvalue off_table (fun _ => 1) cubic 27.
Proof.
  split.
  { apply PE_pow; [exact I|lia|]. apply PE_op; [now left|left; exact I|discriminate..|discriminate|apply PE_var|apply PE_num]. }
  split; [exact I|]. split; [intros H; inversion H|]. split; [cbn; intuition congruence|]. split.
  - cbn. repeat split; try discriminate. intros _ a b Ha Hb. cbn in Ha, Hb. intuition congruence.
  - exists 3, 3. split; [exists 1, 2; split; [reflexivity|]; split; [reflexivity|cbn; f_equal; ring]|].
    split; [cbn; split; [discriminate|field]|]. cbn [binary_value]. rewrite (ExprDeriv.npow_int 3 3) by (left; lra). replace (powerRZ 3 3) with 27; [reflexivity|]. change (powerRZ 3 3) with (3 ^ 3). ring.
Qed.

(** *** What does not hold *)
(** expand(x*x) is not a polynomial but pow(x, C<2>()): simplify_BinaryOp prefers
    the rule for equal factors. *)
Theorem C63_square_refuted : poly_expression "x" (XBin OMul x x) /\
  (forall fuel c, try_expand (S fuel) (XBin OMul x x) <> Ret (XPoly "x" c)) /\
  (forall fuel, try_expand (S fuel) (XBin OMul x x) = Ret (XBin OPow x two)).
Proof.
  split; [apply PE_op; [now right; right|left; exact I|discriminate..|intros _; split; discriminate|apply PE_var|apply PE_var]|].
  assert (E : forall fuel, try_expand (S fuel) (XBin OMul x x) = Ret (XBin OPow x two)) by reflexivity.
  split; [intros fuel c; rewrite E; discriminate|exact E].
Qed.
(** x / 2 with an int 2 becomes the zero polynomial: x is converted to a polynomial
    with int coefficients and these are divided as ints. *)
Theorem C63_int_division_refuted : exists e c, e = XBin ODiv x (i 2) /\
  (forall fuel, try_expand (4 + fuel) e = Ret (XPoly "x" c)) /\
  xvalue off_table (fun _ => 2) e 1 /\ pval (map num_value c) 2 = 0.
Proof.
  exists (XBin ODiv x (i 2)), (map RInt [0; 0]%Z).
  split; [reflexivity|].
  split; [intros fuel; lazy; reflexivity|]. split.
  - exists 2, 2. split; [reflexivity|]. split; [reflexivity|]. cbn. destruct (Req_EM_T 2 0); [lra|f_equal; field].
  - cbn [map num_value]. rewrite !pval_cons, pval_nil. ring.
Qed.
(** The product of polynomials in different variables takes the variable of the
    first: expand(x*y) is x^2. *)
Theorem C63_two_variables_refuted : exists c, (forall fuel, try_expand (3 + fuel) (XBin OMul x y) = Ret (XPoly "x" c)) /\
  let rho v := if String.eqb v "x" then 3 else 5 in
  xvalue off_table rho (XBin OMul x y) 15 /\ pval (map num_value c) (rho "x"%string) = 9.
Proof.
  exists (map RInt [0; 0; 1]%Z). split; [intros fuel; lazy; reflexivity|]. cbn zeta. split.
  - exists 3, 5. split; [reflexivity|]. split; [reflexivity|]. cbn. f_equal. ring.
  - cbn [map num_value String.eqb Ascii.eqb Bool.eqb]. rewrite !pval_cons, pval_nil. ring.
Qed.

(** The three functions differ in what they do to a constant and to a variable: simplify leaves both alone,
    N turns a constant into its value, and expand turns a constant into its value
    and a variable into the polynomial x. *)
Theorem C63_leaves : forall (fuel : nat) (n d : Z) (v : string),
  xtry (xsimp CDefault (S fuel)) (XC n d) = Ret (XC n d) /\ xtry (xsimp CDefault (S fuel)) (XVar v) = Ret (XVar v) /\
  xtry (xsimp CNumbers (S fuel)) (XC n d) = Ret (XNum (RDbl (c_real n d))) /\ xtry (xsimp CNumbers (S fuel)) (XVar v) = Ret (XVar v) /\
  try_expand (S fuel) (XC n d) = Ret (XNum (RDbl (c_real n d))) /\
  exists c, try_expand (S fuel) (XVar v) = Ret (XPoly v c) /\ forall x, pval (map num_value c) x = x.
Proof.
  intros. do 5 (split; [reflexivity|]). eexists. split; [reflexivity|]. intros x. cbn. ring.
Qed.
Print Assumptions C63_leaves.
