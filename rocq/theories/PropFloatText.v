(** C76: the text of doubles, and reading it back. *)
From Coq Require Import ZArith Reals String Ascii List Bool Lia Lra DecimalFacts.
From Flocq Require Import Core Binary Bits.
From Verif Require Import Outcome Num ExprModel ExprSpec ExprBase ParserModel ParserSpec ParserBase ReprProofs PropParser PropReadBack.
From Verif Require Import FloatModel FloatSpec FloatProofs FloatQuad PropFloatExpr FloatTextModel FloatTextSpec FloatText.
Import ListNotations.
From Verif Require Import ExprModel.
Open Scope string_scope.
Open Scope R_scope.

#[local] Instance dexp_valid_pt : Valid_exp dexp.
Proof. apply FLT_exp_valid. reflexivity. Qed.
#[local] Instance prec53_pt : Prec_gt_0 53.
Proof. reflexivity. Qed.

(** ** The text of a finite double *)
Lemma frac_ok m e : (0 < fst (frac m e))%Z /\ (0 < snd (frac m e))%Z /\
  IZR (fst (frac m e)) / IZR (snd (frac m e)) = F2R (Float radix2 (Zpos m) e).
Proof.
  unfold frac, F2R. cbn [Fnum Fexp]. destruct (Z.leb_spec 0 e) as [H|H]; cbn [fst snd].
  - split; [|split; [lia|]].
    + apply Z.mul_pos_pos; [lia|apply Z.pow_pos_nonneg; lia].
    + rewrite mult_IZR, (IZR_Zpower radix2) by lia. field.
  - split; [lia|]. split; [apply Z.pow_pos_nonneg; lia|].
    rewrite (IZR_Zpower radix2) by lia. rewrite bpow_opp. pose proof (bpow_gt_0 radix2 e). field. lra.
Qed.
Lemma finite_range m e : SpecFloat.bounded 53 1024 m e = true ->
  bpow radix2 (-1074) <= F2R (Float radix2 (Zpos m) e) < bpow radix2 1024.
Proof.
  intros H. split.
  - exact (bounded_ge_emin 53 1024 m e H).
  - exact (bounded_lt_emax 53 1024 m e H).
Qed.
Lemma two_ten : bpow radix2 1074 < B10 400.
Proof.
  rewrite <- (IZR_Zpower radix2 1074), <- (IZR_Zpower ten 400) by lia. apply IZR_lt. vm_compute. reflexivity.
Qed.
Lemma positive_text P m e : (1 <= P)%nat -> SpecFloat.bounded 53 1024 m e = true ->
  let x := F2R (Float radix2 (Zpos m) e) in
  let qX := significant P (fst (frac m e)) (snd (frac m e)) in
  let t := format_g P (fst qX) (snd qX) in
  is_number t /\ 0 <= decimal_value t /\ exists X, B10 X <= x /\ Rabs (decimal_value t - x) <= / 2 * B10 (X - Z.of_nat P + 1).
Proof.
  intros HP Hb x qX t. destruct (frac_ok m e) as (Hn & Hd & Ef). destruct (finite_range m e Hb) as [R1 R2].
  set (n := fst (frac m e)) in *. set (d := snd (frac m e)) in *. fold x in Ef, R1, R2.
  assert (Pn : 0 < IZR n) by now apply IZR_lt. assert (Pd : 0 < IZR d) by now apply IZR_lt.
  assert (En : IZR n = x * IZR d) by (rewrite <- Ef; field; lra).
  pose proof two_ten as TT. assert (T2 : bpow radix2 1024 <= bpow radix2 1074) by (apply bpow_le; lia).
  destruct (significant_ok P n d HP Hn Hd) as (Q & XX & X0 & L & E).
  - rewrite En. apply Rmult_lt_compat_r; auto. lra.
  - rewrite En. apply Rle_trans with (1 * IZR d); [lra|]. rewrite <- Rmult_assoc. apply Rmult_le_compat_r; [lra|].
    apply Rle_trans with (bpow radix2 1074 * bpow radix2 (-1074)); [rewrite <- bpow_plus; change (1074 + -1074)%Z with 0%Z; change (bpow radix2 0) with 1; lra|].
    apply Rmult_le_compat; try apply bpow_ge_0; lra.
  - fold qX in Q, XX, E. rewrite Ef in L, E.
    destruct (format_ok P (fst qX) (snd qX) HP Q ltac:(lia)) as [N V]. fold t in N, V.
    split; [exact N|]. rewrite V. split.
    + apply Rmult_le_pos; [apply IZR_le; lia|apply bpow_ge_0].
    + exists X0. auto.
Qed.

(** The text of [a] without its sign. *)
Definition abs_text (P : nat) (a : d64) : string := show_double P (d_abs a).
Lemma show_sign P a : fin a -> show_double P a = sign_text (d_signbit a) ++ abs_text P a.
Proof. unfold abs_text. destruct a as [s|s|s pl Hp|s m e H]; intros F; try discriminate F; destruct s; reflexivity. Qed.

Lemma abs_text_ok P a : (1 <= P)%nat -> fin a -> is_number (abs_text P a) /\ 0 <= decimal_value (abs_text P a) /\
  Rabs (decimal_value (abs_text P a) - Rabs (dR a)) <= / 2 * B10 (1 - Z.of_nat P) * Rabs (dR a) /\
  (dR a = 0 -> decimal_value (abs_text P a) = 0) /\
  (dR a <> 0 -> exists X, B10 X <= Rabs (dR a) /\ Rabs (decimal_value (abs_text P a) - Rabs (dR a)) <= / 2 * B10 (X - Z.of_nat P + 1)).
Proof.
  intros HP F. destruct a as [s|s|s pl Hp|s m e H]; try discriminate F.
  - assert (E : abs_text P (B754_zero 53 1024 s) = "0") by reflexivity. rewrite E. cbn [dR B2R]. unfold dR. cbn [B2R].
    assert (V : decimal_value "0" = 0) by (unfold decimal_value; cbn; lra). rewrite V.
    split; [exists "0", "", ""; repeat split; auto; try discriminate; cbn; unfold digit; cbn; lia|].
    split; [lra|]. split; [rewrite !Rminus_0_r, Rabs_R0 || rewrite Rabs_R0, Rminus_0_r, Rabs_R0; lra|]. split; [auto|lra].
  - assert (E : abs_text P (B754_finite 53 1024 s m e H) = 
       format_g P (fst (significant P (fst (frac m e)) (snd (frac m e)))) (snd (significant P (fst (frac m e)) (snd (frac m e))))) by reflexivity.
    rewrite E. destruct (positive_text P m e HP H) as (N & V0 & X & L & D).
    assert (A : Rabs (dR (B754_finite 53 1024 s m e H)) = F2R (Float radix2 (Zpos m) e)).
    { unfold dR. cbn [B2R]. rewrite <- F2R_Zabs. f_equal. destruct s; reflexivity. }
    assert (Px : 0 < F2R (Float radix2 (Zpos m) e)) by (eapply Rlt_le_trans; [apply B10_pos|exact L]).
    rewrite A. split; [exact N|]. split; [exact V0|]. split; [|split].
    + eapply Rle_trans; [exact D|]. rewrite Rmult_assoc. apply Rmult_le_compat_l; [lra|].
      replace (X - Z.of_nat P + 1)%Z with (1 - Z.of_nat P + X)%Z by lia. rewrite bpow_plus.
      apply Rmult_le_compat_l; [apply bpow_ge_0|exact L].
    + intros Z. rewrite Z, Rabs_R0 in A. lra.
    + intros _. exists X. auto.
Qed.

(** Any number of digits: the text is a number, with a minus sign iff the sign bit
    is set, and its value is within half a unit of the last digit. *)
Theorem C76_value : forall (P : nat) (a : d64), (1 <= P)%nat -> fin a ->
  exists t, show_double P a = (if d_signbit a then "-" ++ t else t) /\ is_number t /\
    Rabs (decimal_value t - Rabs (dR a)) <= / 2 * B10 (1 - Z.of_nat P) * Rabs (dR a).
Proof.
  intros P a HP F. exists (abs_text P a). split; [|destruct (abs_text_ok P a HP F); tauto].
  rewrite (show_sign P a F). destruct (d_signbit a); reflexivity.
Qed.
Print Assumptions C76_value.

(** Seventeen digits: reading the text gives back the double, bit for bit. *)
Theorem C76_reads_back : forall read, reads_nearest read -> forall a : d64, fin a ->
  exists t, repr_double a = (if d_signbit a then "-" ++ t else t) /\ is_number t /\
    (if d_signbit a then d_opp (read t) else read t) = a.
Proof.
  intros read Rn a F. exists (abs_text 17 a). destruct (abs_text_ok 17 a ltac:(lia) F) as (N & V0 & _ & Z & NZ).
  split; [unfold repr_double; rewrite (show_sign 17 a F); destruct (d_signbit a); reflexivity|]. split; [exact N|].
  assert (E : drnd (decimal_value (abs_text 17 a)) = Rabs (dR a)).
  { destruct (Req_dec (dR a) 0) as [E|E].
    - rewrite (Z E), E, Rabs_R0. apply round_0. apply valid_rnd_N.
    - destruct (NZ E) as (X & L & D). eapply back_to_double; [|exact L|].
      + apply generic_format_abs. apply dR_fmt.
      + replace (X - 16)%Z with (X - Z.of_nat 17 + 1)%Z by lia. exact D. }
  destruct (Rn (abs_text 17 a) N) as (Fr & Er & Sr).
  { rewrite E, Rabs_Rabsolu. apply abs_B2R_lt_emax. }
  rewrite E in Er.
  assert (Sa : Rabs (dR a) = if d_signbit a then - dR a else dR a).
  { destruct a as [s|s|s pl Hp|s m e H]; try discriminate F.
    - unfold dR. cbn [B2R]. rewrite Rabs_R0. destruct s; cbn [d_signbit Bsign]; unfold d_signbit; cbn [Bsign]; ring.
    - unfold dR, d_signbit. cbn [B2R Bsign]. destruct s; cbn [cond_Zopp].
      + rewrite Rabs_left1; [reflexivity|]. apply F2R_le_0. cbn. lia.
      + rewrite Rabs_pos_eq; [reflexivity|]. apply F2R_ge_0. cbn. lia. }
  destruct (d_signbit a) eqn:Sg.
  - destruct (opp_R (read (abs_text 17 a)) Fr) as (Fo & Eo & So).
    apply (B2R_Bsign_inj 53 1024); [exact Fo|exact F| |].
    + unfold dR in *. rewrite Eo, Er, Sa. lra.
    + change (d_signbit (d_opp (read (abs_text 17 a))) = d_signbit a). rewrite So, Sr, Sg. reflexivity.
  - apply (B2R_Bsign_inj 53 1024); [exact Fr|exact F| |].
    + unfold dR in *. rewrite Er, Sa. reflexivity.
    + change (d_signbit (read (abs_text 17 a)) = d_signbit a). rewrite Sr, Sg. reflexivity.
Qed.
Print Assumptions C76_reads_back.

(** ** A conversion from text to double that returns the nearest *)
Definition nearest_double (r : R) : d64 :=
  binary_normalize 53 1024 eq_refl eq_refl BinarySingleNaN.mode_NE
    (ZnearestE (scaled_mantissa radix2 dexp r)) (cexp radix2 dexp r) false.
Lemma nearest_ok r : 0 <= r -> Rabs (drnd r) < bpow radix2 1024 ->
  fin (nearest_double r) /\ dR (nearest_double r) = drnd r /\ d_signbit (nearest_double r) = false.
Proof.
  intros P H. unfold nearest_double, dR.
  pose proof (binary_normalize_correct 53 1024 eq_refl eq_refl BinarySingleNaN.mode_NE
    (ZnearestE (scaled_mantissa radix2 dexp r)) (cexp radix2 dexp r) false) as C.
  change (F2R (Float radix2 (ZnearestE (scaled_mantissa radix2 dexp r)) (cexp radix2 dexp r))) with (drnd r) in C.
  change (round radix2 (SpecFloat.fexp 53 1024) (BinarySingleNaN.round_mode BinarySingleNaN.mode_NE) (drnd r)) with (drnd (drnd r)) in C.
  rewrite (rnd_fmt (drnd r)) in C by (apply generic_format_round; [typeclasses eauto|apply valid_rnd_N]).
  rewrite (Rlt_bool_true _ _ H) in C. destruct C as (A & B & D). split; [exact B|]. split; [exact A|].
  assert (P' : 0 <= drnd r).
  { rewrite <- (round_0 radix2 dexp ZnearestE). apply round_le; try typeclasses eauto. exact P. }
  unfold d_signbit. destruct P' as [P'|P'].
  - rewrite Rcompare_Gt in D by lra. exact D.
  - rewrite Rcompare_Eq in D by lra. exact D.
Qed.
Lemma decimal_nonneg t : 0 <= decimal_value t.
Proof.
  assert (N : forall s n k, (0 <= n)%Z -> (0 <= fst (fst (digits_at s n k)))%Z).
  { induction s as [|c s IH]; intros n k Hn; cbn [digits_at]; auto.
    destruct (_ && _)%bool eqn:E; auto. apply IH. apply is_digit_test in E. unfold digit in E. unfold digit_val. lia. }
  unfold decimal_value. destruct (digits_at t 0 0) as [[i k0] r] eqn:E0.
  pose proof (N t 0%Z 0%Z ltac:(lia)) as N0. rewrite E0 in N0. cbn [fst] in N0.
  destruct (match r with String c u => if Ascii.eqb c "." then digits_at u i 0 else (i, 0%Z, r) | "" => (i, 0%Z, r) end) as [[m k] r2] eqn:E1.
  apply Rmult_le_pos; [|apply bpow_ge_0]. apply IZR_le.
  destruct r as [|c u]; [injection E1 as <- _ _; exact N0|]. destruct (Ascii.eqb c ".").
  - pose proof (N u i 0%Z N0) as N1. rewrite E1 in N1. exact N1.
  - injection E1 as <- _ _. exact N0.
Qed.
Definition read_nearest (t : string) : d64 := nearest_double (decimal_value t).
Theorem C76_reader_exists : reads_nearest read_nearest.
Proof. intros t _ H. apply nearest_ok; [apply decimal_nonneg|exact H]. Qed.
Print Assumptions C76_reader_exists.

(** Different doubles have different texts. *)
Theorem C76_distinct : forall a b : d64, fin a -> fin b -> repr_double a = repr_double b -> a = b.
Proof.
  intros a b Fa Fb E.
  destruct (C76_reads_back read_nearest C76_reader_exists a Fa) as (t & Ta & Na & Ra).
  destruct (C76_reads_back read_nearest C76_reader_exists b Fb) as (u & Tb & Nb & Rb).
  pose proof (number_not_dash t Na) as Da. pose proof (number_not_dash u Nb) as Db.
  rewrite Ta, Tb in E. destruct (d_signbit a), (d_signbit b).
  - injection E as ->. congruence.
  - subst u. discriminate Db.
  - subst t. discriminate Da.
  - subst u. congruence.
Qed.
Print Assumptions C76_distinct.

(** Sixteen digits are not enough: 1 and the next double have the same text. *)
Theorem C76_sixteen_digits_refuted : let a := d_lit 1 0 in let b := d_lit (2 ^ 52 + 1) (-52) in
  show_double 16 a = show_double 16 b /\ a <> b /\ repr_double a = "1" /\ repr_double b = "1.0000000000000002".
Proof.
  cbv zeta. split; [vm_compute; reflexivity|]. split; [|split; vm_compute; reflexivity].
  intros E. apply (f_equal repr_double) in E. vm_compute in E. discriminate E.
Qed.

(** ** Expressions with double constants *)
(** A finite constant is printed as a number, with "-" iff its sign bit is set. *)
Lemma double_constant M read c : reads_nearest read -> fin c ->
  plain_constant read repr_double c /\ d_signbit c = false \/
  negative_constant (EN := D_enum M) read repr_double c /\ d_signbit c = true.
Proof.
  intros Rn F. destruct (C76_reads_back read Rn c F) as (t & E & N & B).
  destruct (d_signbit c) eqn:S.
  - right. split; auto. exists t. split; [exact E|]. split; [exact N|exact B].
  - left. split; auto. unfold plain_constant. rewrite E. auto.
Qed.
Theorem C76_minus_sign : forall M read c, reads_nearest read -> fin c ->
  (negative_constant (EN := D_enum M) read repr_double c <-> d_signbit c = true).
Proof.
  intros M read c Rn F. split.
  - intros (t & E & N & _). destruct (double_constant M read c Rn F) as [[[Np _] _]|[_ S]]; auto.
    apply number_not_dash in Np. rewrite E in Np. discriminate Np.
  - intros S. destruct (double_constant M read c Rn F) as [[_ S']|[H _]]; congruence.
Qed.
Fixpoint double_leaves (e : expr d64) : Prop :=
  match e with
  | EConst c => fin c
  | EVar x => is_name x
  | EUn o a => (fun_name o <> None \/ o = UNeg) /\ ~ is_dictionary a /\ double_leaves a
  | EBin o l r => ~ is_dictionary l /\ ~ is_dictionary r /\ double_leaves l /\ double_leaves r
  | EArr es => fold_right (fun a P => double_leaves a /\ P) True es
  | EDict d => NoDup (map fst d) /\ fold_right (fun p P => (is_name (fst p) /\ double_leaves (snd p)) /\ P) True d
  end.
Lemma double_leaves_writable M read e : reads_nearest read -> double_leaves e -> writable (EN := D_enum M) read repr_double e.
Proof.
  intros Rn H. induction e using expr_ind'; simpl in *; try contradiction; auto.
  - destruct (double_constant M read c Rn H) as [[A _]|[A _]]; auto.
  - destruct H as (Ho & Hd & H). auto.
  - destruct H as (D1 & D2 & H1 & H2). auto.
  - apply ParserProofs.fold_and in H. apply ParserProofs.fold_and. rewrite Forall_forall in *. auto.
  - destruct H as [Nd H]. split; [exact Nd|]. apply ParserProofs.fold_and in H. apply ParserProofs.fold_and. rewrite Forall_forall in *.
    intros p I. destruct (H p I). split; auto.
Qed.
(** An expression of finite doubles, variables, functions, operators, arrays and
    dictionaries is printed, and read back as the same expression, every constant bit
    for bit, exactly when it has one of the forms of C37. *)
Theorem C76_expressions : forall M read forced (e : expr d64), reads_nearest read -> double_leaves e ->
  exists s, repr repr_double forced e = Ret s /\
    (parse (EN := D_enum M) read repr_double s = Ret e <-> faithful (EN := D_enum M) read repr_double forced e).
Proof.
  intros M read forced e Rn H. apply C37_reads_back_iff. now apply double_leaves_writable.
Qed.
Print Assumptions C76_expressions.

(** 0.1*x^-2.5 *)
Example C76_expression_ex : let tenth := b64_div BinarySingleNaN.mode_NE (d_lit 1 0) (d_lit 10 0) in
  let e := EBin BMul (EConst tenth) (EBin BPow (EVar "x") (EConst (d_lit (-5) (-1)))) in
  forall M read, reads_nearest read ->
  double_leaves e /\ faithful (EN := D_enum M) read repr_double false e /\
  repr repr_double false e = Ret "0.10000000000000001*x^-2.5".
Proof.
  intros tenth e M read Rn.
  assert (T : repr_double tenth = "0.10000000000000001") by (vm_compute; reflexivity).
  assert (Ft : fin tenth) by (vm_compute; reflexivity).
  assert (Nt : d_signbit tenth = false) by (vm_compute; reflexivity).
  clearbody tenth. assert (T2 : repr_double (d_lit (-5) (-1)) = "-2.5") by (vm_compute; reflexivity).
  assert (F2 : fin (d_lit (-5) (-1))) by (vm_compute; reflexivity).
  set (c := d_lit (-5) (-1)) in *. clearbody c. split; [|split].
  - unfold e. simpl. repeat split; auto; try (apply name1; reflexivity).
  - unfold e. simpl. split; [intros _; split; [intros Q; discriminate Q|]|split; auto].
    + intros _ _ N. apply (C76_minus_sign M read tenth Rn Ft) in N. congruence.
  - unfold e. cbn. rewrite T, T2. reflexivity.
Qed.

(** Infinities and NaN are printed as names: they come back as variables. *)
Theorem C76_nonfinite_refuted : forall M read (s : bool) pl Hp,
  let inf := @B754_infinity 53 1024 s in let nan := @B754_nan 53 1024 s pl Hp in
  let named x := if s then EUn UNeg (EVar x) else EVar x in
  (repr repr_double false (EConst inf) = Ret (sign_text s ++ "inf") /\
   parse (EN := D_enum M) read repr_double (sign_text s ++ "inf") = Ret (named "inf")) /\
  (repr repr_double false (EConst nan) = Ret (sign_text s ++ "nan") /\
   parse (EN := D_enum M) read repr_double (sign_text s ++ "nan") = Ret (named "nan")).
Proof. intros M read [|] pl Hp; cbv zeta; repeat split; vm_compute; reflexivity. Qed.
Print Assumptions C76_nonfinite_refuted.

(** ** Whole numbers *)
Open Scope Z_scope.
Lemma zeros_snoc k : zeros (S k) = zeros k ++ "0".
Proof. induction k as [|k IH]; [reflexivity|]. cbn [zeros append] in *. now rewrite IH at 1. Qed.
Lemma digs_scaled a b : forall z, digs (a + b) (z * 10 ^ Z.of_nat b) = digs a z ++ zeros b.
Proof.
  induction b as [|b IH]; intros z.
  - rewrite Nat.add_0_r. cbn [zeros Z.of_nat]. now rewrite Z.mul_1_r, sapp_nil_r.
  - rewrite Nat.add_succ_r. cbn [digs]. rewrite Nat2Z.inj_succ, Z.pow_succ_r by lia.
    replace (z * (10 * 10 ^ Z.of_nat b)) with (z * 10 ^ Z.of_nat b * 10) by ring.
    rewrite Z.div_mul, Z.mod_mul by lia. rewrite IH, zeros_snoc, <- sapp_assoc. reflexivity.
Qed.
Lemma strip_zeros k : strip (zeros k) = "".
Proof. induction k as [|k IH]; cbn; auto. now rewrite IH. Qed.
Lemma take_app a b : stake (String.length a) (a ++ b) = a /\ sdrop (String.length a) (a ++ b) = b.
Proof. induction a as [|c a [I1 I2]]; cbn; [split; destruct b; reflexivity|]. rewrite I1. auto. Qed.

(** Decimal notation and the digits. *)
Lemma dv_uint d : forall p, dv (Zpos p) (DecimalString.NilEmpty.string_of_uint d) = Zpos (Pos.of_uint_acc d p).
Proof.
  assert (K : forall s m k k', fst (fst (digits_at s m k)) = fst (fst (digits_at s m k'))).
  { clear. induction s as [|c s IH]; intros m k k'; cbn; auto. destruct (_ && _)%bool; auto. }
  unfold dv. induction d; intros p; [reflexivity|..]; cbn [DecimalString.NilEmpty.string_of_uint Pos.of_uint_acc];
    rewrite <- IHd; cbn [digits_at]; match goal with |- context [if ?b then _ else _] => change b with true end; cbv iota;
    rewrite (K _ _ _ 0);
    match goal with |- fst (fst (digits_at _ ?A _)) = fst (fst (digits_at _ ?B _)) => replace A with B; [reflexivity|] end;
    match goal with |- context [digit_val ?c] => let v := eval vm_compute in (digit_val c) in change (digit_val c) with v end; lia.
Qed.
Lemma dv_uint0 d : dv 0 (DecimalString.NilEmpty.string_of_uint d) = Z.of_uint d.
Proof.
  unfold Z.of_uint. assert (K : forall s m k k', fst (fst (digits_at s m k)) = fst (fst (digits_at s m k'))).
  { clear. induction s as [|c s IH]; intros m k k'; cbn; auto. destruct (_ && _)%bool; auto. }
  induction d as [|d IH| | | | | | | | |]; [reflexivity|..]; cbn [DecimalString.NilEmpty.string_of_uint Pos.of_uint].
  1: { rewrite <- IH. unfold dv. cbn. apply K. }
  all: cbn [Z.of_N]; rewrite <- dv_uint; unfold dv; cbn [digits_at];
    match goal with |- context [if ?b then _ else _] => change b with true end; cbv iota; rewrite (K _ _ _ 0); reflexivity.
Qed.
(** Equal lengths and values. *)
Lemma dv_cons c s n : digit c -> dv n (String c s) = dv (10 * n + digit_val c) s.
Proof.
  assert (K : forall s m k k', fst (fst (digits_at s m k)) = fst (fst (digits_at s m k'))).
  { clear. induction s as [|c s IH]; intros m k k'; cbn; auto. destruct (_ && _)%bool; auto. }
  intros Hc. unfold dv. cbn [digits_at]. apply is_digit_test in Hc. rewrite Hc. apply K.
Qed.
Lemma dv_shift s : all_chars digit s -> forall n, dv n s = n * 10 ^ slen s + dv 0 s.
Proof.
  induction s as [|c s IH]; intros A n.
  - unfold dv. cbn. lia.
  - destruct A as [Hc A]. rewrite !dv_cons by auto. rewrite (IH A (10 * n + digit_val c)), (IH A (10 * 0 + digit_val c)).
    cbn [String.length]. rewrite Nat2Z.inj_succ, Z.pow_succ_r by lia. ring.
Qed.
Lemma dv_bound s : all_chars digit s -> 0 <= dv 0 s < 10 ^ slen s.
Proof.
  induction s as [|c s IH]; intros A; [unfold dv; cbn; lia|].
  destruct A as [Hc A]. change (String c s) with (String c "" ++ s). rewrite dv_app by (split; [exact Hc|exact I]).
  rewrite (dv_shift s A). specialize (IH A).
  assert (E : dv 0 (String c "") = digit_val c).
  { unfold dv. cbn [digits_at]. rewrite (proj2 (is_digit_test c) Hc). cbn [digits_at fst]. lia. }
  rewrite E. assert (0 <= digit_val c <= 9) by (unfold digit in Hc; unfold digit_val; lia).
  rewrite slen_app. change (String.length (String c "")) with 1%nat. rewrite Nat2Z.inj_add, Z.pow_add_r by lia.
  change (10 ^ Z.of_nat 1) with 10. nia.
Qed.
Lemma digit_val_inj c d : digit_val c = digit_val d -> c = d.
Proof.
  unfold digit_val. intros E. assert (N : N_of_ascii c = N_of_ascii d) by lia.
  rewrite <- (ascii_N_embedding c), <- (ascii_N_embedding d). now rewrite N.
Qed.
Lemma dv_inj s : forall t, all_chars digit s -> all_chars digit t -> String.length s = String.length t ->
  dv 0 s = dv 0 t -> s = t.
Proof.
  induction s as [|c s IH]; intros [|d t] A B L E; try discriminate L; auto.
  destruct A as [Hc A], B as [Hd B]. injection L as L.
  assert (V : forall c s, digit c -> all_chars digit s -> dv 0 (String c s) = digit_val c * 10 ^ slen s + dv 0 s).
  { clear. intros c s Hc A. change (String c s) with (String c "" ++ s). rewrite dv_app by (split; [exact Hc|exact I]).
    rewrite (dv_shift s A). do 2 f_equal.
    unfold dv. cbn [digits_at]. rewrite (proj2 (is_digit_test c) Hc). cbn [digits_at fst]. lia. }
  rewrite !V in E by auto. rewrite L in E.
  pose proof (dv_bound s A) as B1. pose proof (dv_bound t B) as B2. rewrite L in B1.
  assert (0 < 10 ^ slen t) by (apply Z.pow_pos_nonneg; lia).
  assert (F : digit_val c = digit_val d) by nia.
  rewrite F in E. f_equal; [apply digit_val_inj; auto|]. apply IH; auto. lia.
Qed.
(** The decimal notation of a positive number: digits, value, no leading zero. *)
Lemma decimal_pos z : 0 < z -> all_chars digit (decimal z) /\ dv 0 (decimal z) = z /\ ~ first_is (fun c => c = "0"%char) (decimal z).
Proof.
  intros Hz. destruct z as [|p|p]; try lia. unfold decimal. cbn [Z.to_int].
  change (Z.to_int (Z.pos p)) with (Decimal.Pos (Pos.to_uint p)). cbn [DecimalString.NilZero.string_of_int].
  pose proof (DecimalPos.Unsigned.to_uint_nonnil p) as Nn. pose proof (DecimalPos.Unsigned.of_to p) as Of.
  set (d := Pos.to_uint p) in *.
  assert (E : DecimalString.NilZero.string_of_uint d = DecimalString.NilEmpty.string_of_uint d) by (clearbody d; clear - Nn; destruct d; [congruence|reflexivity..]).
  rewrite E. split; [|split].
  - clear. induction d; cbn; auto; (split; [unfold digit; cbn; lia|auto]).
  - rewrite dv_uint0. unfold Z.of_uint. rewrite Of. reflexivity.
  - pose proof (DecimalPos.Unsigned.to_of d) as U. rewrite Of in U. cbn [N.to_uint] in U. fold d in U.
    clear E Nn. destruct d as [|d| | | | | | | | |]; cbn; try (intros Q; discriminate Q); auto.
    intros _. rewrite unorm_D0 in U. assert (Dn : d = Decimal.Nil \/ d <> Decimal.Nil) by (clear; destruct d; [left; reflexivity|right; discriminate..]).
    destruct Dn as [->|Hd].
    + discriminate Of.
    + pose proof (nb_digits_unorm d Hd) as Hl. rewrite <- U in Hl. cbn in Hl. lia.
Qed.

(** Digits without a leading zero are the decimal notation. *)
Lemma digs_decimal n z : 0 < z -> 10 ^ Z.of_nat n <= z < 10 ^ Z.of_nat (S n) -> digs (S n) z = decimal z.
Proof.
  intros Hz [L U]. destruct (digs_ok (S n) z ltac:(lia)) as (A & Ln & V). rewrite Z.mod_small in V by lia.
  destruct (decimal_pos z Hz) as (Ad & Vd & Nd). apply dv_inj; auto; [|congruence].
  rewrite Ln. set (k := String.length (decimal z)). pose proof (dv_bound _ Ad) as B. rewrite Vd in B. fold k in B.
  destruct (Nat.lt_trichotomy k (S n)) as [C|[C|C]]; auto; exfalso.
  - assert (10 ^ Z.of_nat k <= 10 ^ Z.of_nat n) by (apply Z.pow_le_mono_r; lia). lia.
  - unfold k in C. destruct (decimal z) as [|c t] eqn:E; [cbn in C; lia|].
    destruct Ad as [Hc At]. rewrite dv_cons in Vd by auto. rewrite dv_shift in Vd by auto.
    pose proof (dv_bound t At) as Bt. cbn [String.length] in C.
    assert (P : 10 ^ Z.of_nat (S n) <= 10 ^ slen t) by (apply Z.pow_le_mono_r; lia).
    assert (D0 : digit_val c <> 0).
    { intros Q. apply Nd. cbn. apply digit_val_inj. rewrite Q. reflexivity. }
    assert (0 <= digit_val c) by (unfold digit in Hc; unfold digit_val; lia). nia.
Qed.
Lemma rne_exact k b : 0 < b -> rne (k * b) b = k.
Proof.
  intros Hb. unfold rne. rewrite Z.div_mul, Z.mod_mul by lia. destruct (Z.compare_spec (2 * 0) b); try lia; reflexivity.
Qed.
Lemma whole_text (P : nat) n d z : 0 < d -> 0 < z < 10 ^ Z.of_nat P -> n = z * d -> (P <= 400)%nat ->
  format_g P (fst (significant P n d)) (snd (significant P n d)) = decimal z.
Proof.
  intros Hd Hz En HP.
  assert (Pz : (1 <= P)%nat) by (destruct P; [cbn in Hz; lia|lia]).
  assert (Pd : (0 < IZR d)%R) by now apply IZR_lt.
  assert (PZ : (0 < IZR z)%R) by (apply IZR_lt; lia).
  assert (T4 : (1 <= B10 400)%R) by (change 1%R with (B10 0); apply bpow_le; lia).
  assert (Zu : (IZR z < B10 (Z.of_nat P))%R) by (rewrite <- (IZR_Zpower ten) by lia; apply IZR_lt; apply Hz).
  destruct (dec_exp_ok n d) as [HX HB]; [nia|exact Hd| | |].
  { rewrite En, mult_IZR. apply Rmult_lt_compat_r; auto. eapply Rlt_le_trans; [exact Zu|]. apply bpow_le. lia. }
  { rewrite En, mult_IZR. rewrite <- Rmult_assoc. rewrite <- (Rmult_1_l (IZR d)) at 1. apply Rmult_le_compat_r; [lra|].
    assert ((1 <= IZR z)%R) by (apply IZR_le; lia). nra. }
  assert (Ez : (IZR n / IZR d = IZR z)%R) by (rewrite En, mult_IZR; field; lra).
  rewrite Ez in HB. unfold significant. set (X := dec_exp n d) in *.
  assert (X0 : 0 <= X).
  { assert (L : (B10 0 < B10 (X + 1))%R) by (eapply Rle_lt_trans; [|apply HB]; apply (IZR_le 1); lia). apply lt_bpow in L. lia. }
  assert (XP : X < Z.of_nat P) by (apply (lt_bpow ten); eapply Rle_lt_trans; [apply HB|exact Zu]).
  destruct HB as [B1 B2]. rewrite <- (IZR_Zpower ten) in B1, B2 by lia. apply le_IZR in B1. apply lt_IZR in B2.
  change (radix_val ten) with 10 in B1, B2.
  set (s := Z.of_nat P - 1 - X). destruct (Z.leb_spec 0 s); [|unfold s in *; lia].
  replace (n * 10 ^ s) with (z * 10 ^ s * d) by (rewrite En; ring). rewrite rne_exact by auto.
  assert (Q : z * 10 ^ s < 10 ^ Z.of_nat P).
  { replace (Z.of_nat P) with (X + 1 + s) by (unfold s; lia). rewrite Z.pow_add_r by lia.
    apply Z.mul_lt_mono_pos_r; auto. apply Z.pow_pos_nonneg; lia. }
  destruct (Z.eqb_spec (z * 10 ^ s) (10 ^ Z.of_nat P)); [lia|]. cbn [fst snd].
  unfold format_g. destruct (Z.leb_spec (-4) X); [|lia]. destruct (Z.ltb_spec X (Z.of_nat P)); [|lia]. cbn [andb].
  destruct (Z.leb_spec 0 X); [|lia].
  replace P with (S (Z.to_nat X) + Z.to_nat s)%nat at 1 2 by (unfold s; lia).
  replace (10 ^ s) with (10 ^ Z.of_nat (Z.to_nat s)) by (f_equal; lia).
  rewrite digs_scaled. replace (Z.to_nat (X + 1)) with (String.length (digs (S (Z.to_nat X)) z)).
  - destruct (take_app (digs (S (Z.to_nat X)) z) (zeros (Z.to_nat s))) as [E1 E2]. rewrite E1, E2, strip_zeros. cbn [point].
    rewrite sapp_nil_r. apply digs_decimal; [lia|]. rewrite Nat2Z.inj_succ, Z2Nat.id by lia. unfold Z.succ. split; auto.
  - destruct (digs_ok (S (Z.to_nat X)) z ltac:(lia)) as (_ & Ln & _). rewrite Ln. lia.
Qed.

(** A whole number of at most 17 digits is printed in plain decimal notation:
    no point, no exponent. *)
Theorem C76_whole_numbers : forall (a : d64) (z : Z), fin a -> dR a = IZR z -> Z.abs z < 10 ^ 17 -> (z = 0 -> d_signbit a = false) ->
  repr_double a = decimal z.
Proof.
  intros a z F E B Sz. destruct a as [s|s|s pl Hp|s m e H]; try discriminate F.
  - unfold dR in E. cbn [B2R] in E. apply (eq_IZR 0 z) in E. subst z. specialize (Sz eq_refl). cbn in Sz. subst s. reflexivity.
  - destruct (frac_ok m e) as (Hn & Hd & Ef).
    change (repr_double (B754_finite 53 1024 s m e H)) with
      (sign_text s ++ format_g 17 (fst (significant 17 (fst (frac m e)) (snd (frac m e)))) (snd (significant 17 (fst (frac m e)) (snd (frac m e))))).
    assert (A : (F2R (Float radix2 (Zpos m) e) = IZR (Z.abs z))%R).
    { rewrite abs_IZR, <- E. unfold dR. cbn [B2R]. rewrite <- F2R_Zabs. f_equal. destruct s; reflexivity. }
    assert (Pos : (0 < F2R (Float radix2 (Zpos m) e))%R) by (apply F2R_gt_0; reflexivity).
    assert (Az : 0 < Z.abs z) by (apply lt_IZR; rewrite <- A; exact Pos).
    rewrite (whole_text 17 _ _ (Z.abs z)); [| exact Hd |split; [exact Az|exact B]| |lia].
    + unfold dR in E. cbn [B2R] in E. destruct s; cbn [cond_Zopp] in E.
      * assert (z < 0). { apply lt_IZR. rewrite <- E. apply F2R_lt_0. reflexivity. }
        destruct z; try lia. reflexivity.
      * assert (0 < z). { apply lt_IZR. rewrite <- E. apply F2R_gt_0. reflexivity. }
        destruct z; try lia. reflexivity.
    + apply eq_IZR. rewrite mult_IZR, <- A, <- Ef. field. apply Rgt_not_eq. now apply IZR_lt.
Qed.
Print Assumptions C76_whole_numbers.
Example C76_whole_ex : repr_double (d_lit (-123456789) 0) = decimal (-123456789).
Proof. vm_compute. reflexivity. Qed.

(** C74: intervals of doubles.  The first "..." of the text separates the bounds, and both
    are read back. *)
From Verif Require Import IntervalModel PropInterval.
From Verif Require Import ExprModel.
Open Scope Z_scope.
Lemma dots_digits a b : all_chars digit a -> inner_dots b -> inner_dots (a ++ b).
Proof.
  intros A B. induction a as [|c a IH]; [exact B|]. destruct A as [D A]. cbn [append inner_dots]. split; [|auto].
  intros ->. exfalso. revert D. unfold digit. cbn. lia.
Qed.
Lemma dots_free a : (forall u v, a <> u ++ String "." v) -> inner_dots a.
Proof.
  induction a as [|c a IH]; intros N; [exact I|]. cbn. split.
  - intros ->. exfalso. exact (N "" a eq_refl).
  - apply IH. intros u v E. apply (N (String c u) v). cbn. now f_equal.
Qed.
Lemma dots_point fr ex : all_chars digit fr -> inner_dots ex -> inner_dots (point fr ++ ex).
Proof.
  intros A B. destruct fr as [|c fr]; [exact B|]. cbn [point append inner_dots]. split.
  - intros _. exists c, (fr ++ ex). split; [reflexivity|]. intros ->. destruct A as [D _]. revert D. unfold digit. cbn. lia.
  - change (inner_dots (String c fr ++ ex)). now apply dots_digits.
Qed.
Lemma dots_exponent X : inner_dots (exponent X).
Proof.
  assert (D : forall s, all_chars digit s -> inner_dots s).
  { intros s A. rewrite <- (sapp_nil_r s). now apply dots_digits. }
  unfold exponent. set (d := if Z.abs X <? 100 then digs 2 (Z.abs X) else digs 3 (Z.abs X)).
  assert (A : all_chars digit d) by (unfold d; destruct (Z.abs X <? 100); apply digs_ok; lia).
  destruct (X <? 0); cbn [append inner_dots]; (split; [discriminate|]); (split; [discriminate|]); auto.
Qed.
Lemma dots_format P q X : 0 <= q -> inner_dots (format_g P q X).
Proof.
  intros Hq. unfold format_g. destruct (digs_ok P q Hq) as (A & _). set (D := digs P q) in *.
  assert (T : forall n, all_chars digit (stake n D) /\ all_chars digit (strip (sdrop n D))).
  { intros n. pose proof (take_drop n D) as E. rewrite E in A. apply all_app in A. destruct A as [A1 A2].
    split; [exact A1|]. now apply strip_digits. }
  destruct ((-4 <=? X) && (X <? Z.of_nat P))%bool.
  - destruct (0 <=? X).
    + destruct (T (Z.to_nat (X + 1))) as [A1 A2]. apply dots_digits; [exact A1|].
      rewrite <- (sapp_nil_r (point _)). apply dots_point; [exact A2|exact I].
    + cbn [append inner_dots]. split; [discriminate|]. rewrite <- (sapp_nil_r (point _)). apply dots_point; [|exact I].
      apply strip_digits. apply all_app. split; [apply zeros_ok|exact A].
  - destruct (T 1%nat) as [A1 A2]. apply dots_digits; [exact A1|]. apply dots_point; [exact A2|apply dots_exponent].
Qed.
Lemma rne_nonneg a b : 0 <= a -> 0 < b -> 0 <= rne a b.
Proof.
  intros A B. unfold rne. pose proof (Z.div_pos a b A B). destruct (2 * (a mod b) ?= b); try lia.
  destruct (Z.even (a / b)); lia.
Qed.
Lemma significant_nonneg P n d : 0 <= n -> 0 < d -> 0 <= fst (significant P n d).
Proof.
  intros Hn Hd. unfold significant. set (s := Z.of_nat P - 1 - dec_exp n d).
  set (q := if 0 <=? s then rne (n * 10 ^ s) d else rne n (d * 10 ^ (- s))).
  assert (Q : 0 <= q).
  { unfold q. destruct (Z.leb_spec 0 s) as [L|L]; apply rne_nonneg; try lia; try (apply Z.mul_nonneg_nonneg; [lia|]; apply Z.pow_nonneg; lia). }
  destruct (q =? 10 ^ Z.of_nat P); cbn [fst]; [apply Z.pow_nonneg; lia|exact Q].
Qed.
Lemma dots_double P (a : d64) : inner_dots (show_double P a).
Proof.
  assert (S : forall s t, inner_dots t -> inner_dots (sign_text s ++ t)).
  { intros [|] t H; [|exact H]. cbn. split; [discriminate|exact H]. }
  destruct a as [s|s|s pl Hp|s m e H]; cbn [show_double]; apply S; try (cbn; repeat split; discriminate).
  destruct (frac_ok m e) as (Hn & Hd & _). apply dots_format. apply significant_nonneg; lia.
Qed.
Theorem C74_printed_doubles : forall read, reads_nearest read -> forall lower upper : d64, fin lower -> fin upper ->
  let t := i_repr repr_double lower upper in
  let value s := match s with String "-" u => d_opp (read u) | _ => read s end in
  exists n, String.index 0 "..." t = Some n /\ value (substring 0 n t) = lower /\
    value (substring (n + 3)%nat (String.length t) t) = upper.
Proof.
  intros read Hr lower upper Fl Fu t value.
  destruct (C74_printed d64 repr_double lower upper (dots_double 17 lower)) as (n & A & B & C).
  exists n. split; [exact A|]. unfold t. rewrite B, C.
  assert (V : forall a, fin a -> value (repr_double a) = a).
  { intros a F. destruct (C76_reads_back read Hr a F) as (u & E & N & R). rewrite E.
    destruct (d_signbit a).
    - exact R.
    - transitivity (read u); [|exact R]. clear R E. unfold value. destruct N as (ip & fp & ex & -> & Ni & Ai & _).
      destruct ip as [|c ip]; [congruence|]. destruct Ai as [Dc _]. cbn [append].
      destruct c as [[] [] [] [] [] [] [] []]; try reflexivity. exfalso. revert Dc. unfold digit. cbn. lia. }
  split; apply V; assumption.
Qed.
Print Assumptions C74_printed_doubles.
Example C74_printed_doubles_ex : i_repr repr_double (d_lit (-5) (-2)) (d_lit 1 (-1)) = "-1.25...0.5" /\
  inner_dots (repr_double (d_lit (-5) (-2))).
Proof. split; [vm_compute; reflexivity|apply dots_double]. Qed.
