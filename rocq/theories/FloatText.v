(** Proofs about the text of doubles: the text is a number, its value is within half
    a unit of the P-th digit, and that is enough to come back to the same double. *)
From Coq Require Import ZArith Reals String Ascii List Bool Lia Lra.
From Flocq Require Import Core Binary Bits.
From Verif Require Import ParserSpec ParserBase FloatModel FloatSpec FloatProofs FloatQuad FloatTextModel FloatTextSpec.
Open Scope string_scope.
Open Scope Z_scope.

#[local] Instance dexp_valid_t : Valid_exp dexp.
Proof. apply FLT_exp_valid. reflexivity. Qed.
#[local] Instance prec53_t : Prec_gt_0 53.
Proof. reflexivity. Qed.

(** ** Digit strings *)
Definition dv (n : Z) (s : string) : Z := fst (fst (digits_at s n 0)).
Notation slen s := (Z.of_nat (String.length s)).

Lemma is_digit_test c : ((48 <=? N_of_ascii c)%N && (N_of_ascii c <=? 57)%N)%bool = true <-> digit c.
Proof. unfold digit. rewrite andb_true_iff, !N.leb_le. tauto. Qed.

Lemma digits_app a : all_chars digit a -> forall n k rest,
  digits_at (a ++ rest) n k = digits_at rest (fst (fst (digits_at a n 0))) (k + slen a).
Proof.
  induction a as [|c a IH]; intros A n k rest.
  - cbn. now rewrite Z.add_0_r.
  - cbn [all_chars] in A. destruct A as [Hc A]. cbn [append digits_at]. apply is_digit_test in Hc. rewrite Hc.
    rewrite (IH A). pose proof (IH A (10 * n + digit_val c) (0 + 1) "") as E. rewrite sapp_nil_r in E. rewrite E. cbn [digits_at fst].
    f_equal. cbn [String.length]. lia.
Qed.
Lemma dv_app a b n : all_chars digit a -> dv n (a ++ b) = dv (dv n a) b.
Proof.
  intros A. unfold dv. rewrite digits_app by auto.
  assert (K : forall s m k k', fst (fst (digits_at s m k)) = fst (fst (digits_at s m k'))).
  { clear. induction s as [|c s IH]; intros m k k'; cbn; auto. destruct (_ && _)%bool; auto. }
  apply K.
Qed.
Lemma digits_all a : all_chars digit a -> forall n k, digits_at a n k = (dv n a, k + slen a, "").
Proof.
  intros A n k. pose proof (digits_app a A n k "") as E. rewrite sapp_nil_r in E. rewrite E. reflexivity.
Qed.
Lemma digits_stop a rest n k : all_chars digit a -> ~ first_is digit rest -> digits_at (a ++ rest) n k = (dv n a, k + slen a, rest).
Proof.
  intros A B. rewrite digits_app by auto. unfold dv. destruct rest as [|c r]; [reflexivity|]. cbn [first_is] in B.
  cbn [digits_at]. destruct (_ && _)%bool eqn:E; [|reflexivity]. apply is_digit_test in E. contradiction.
Qed.
Lemma all_app (p : ascii -> Prop) a b : all_chars p (a ++ b) <-> all_chars p a /\ all_chars p b.
Proof. induction a as [|c a IH]; cbn; [tauto|]. rewrite IH. tauto. Qed.

Lemma digit_char_ok z : 0 <= z <= 9 -> digit (digit_char z) /\ digit_val (digit_char z) = z.
Proof.
  intros H. unfold digit, digit_val, digit_char.
  assert (z = 0 \/ z = 1 \/ z = 2 \/ z = 3 \/ z = 4 \/ z = 5 \/ z = 6 \/ z = 7 \/ z = 8 \/ z = 9) as D by lia.
  repeat destruct D as [->|D]; [..|subst]; cbn; split; lia.
Qed.
Lemma digs_ok n : forall z, 0 <= z -> all_chars digit (digs n z) /\ String.length (digs n z) = n /\
  dv 0 (digs n z) = z mod 10 ^ Z.of_nat n.
Proof.
  induction n as [|n IH]; intros z Hz.
  - cbn. rewrite Z.mod_1_r. auto.
  - cbn [digs]. destruct (IH (z / 10)) as (A & L & V); [apply Z.div_pos; lia|].
    pose proof (Z.mod_pos_bound z 10 ltac:(lia)) as M.
    destruct (digit_char_ok (z mod 10)) as [D E]; [lia|].
    split; [rewrite all_app; cbn; auto|]. split.
    + rewrite slen_app. cbn. lia.
    + rewrite dv_app by auto. rewrite V. unfold dv. cbn [digits_at].
      rewrite (proj2 (is_digit_test _) D). cbn [digits_at fst]. rewrite E.
      rewrite Nat2Z.inj_succ, Z.pow_succ_r by lia.
      rewrite (Z.rem_mul_r z 10 (10 ^ Z.of_nat n)) by (try lia; apply Z.pow_pos_nonneg; lia). lia.
Qed.
Lemma zeros_ok k : all_chars digit (zeros k) /\ String.length (zeros k) = k /\ forall n, dv n (zeros k) = n * 10 ^ Z.of_nat k.
Proof.
  induction k as [|k (A & L & V)]; [split; [exact I|]; split; [reflexivity|]; intros n; unfold dv; cbn [zeros digits_at fst]; change (10 ^ Z.of_nat 0) with 1; lia|]. cbn [zeros].
  assert (D : digit "0") by (unfold digit; cbn; lia).
  split; [cbn; auto|]. split; [cbn; lia|]. intros n.
  change (String "0" (zeros k)) with (String "0" "" ++ zeros k). rewrite dv_app by (cbn; auto). rewrite V.
  unfold dv. cbn [digits_at]. rewrite (proj2 (is_digit_test _) D). cbn [digits_at fst]. change (digit_val "0") with 0.
  rewrite Nat2Z.inj_succ, Z.pow_succ_r by lia. lia.
Qed.
Lemma strip_ok s : exists k, s = strip s ++ zeros k.
Proof.
  induction s as [|c s (k & IH)]; [exists 0%nat; reflexivity|].
  cbn [strip]. destruct (strip s) as [|c' s'] eqn:E.
  - destruct (Ascii.eqb_spec c "0") as [->|N].
    + exists (S k). cbn. f_equal. exact IH.
    + exists k. cbn. f_equal. exact IH.
  - exists k. cbn. f_equal. exact IH.
Qed.
Lemma take_drop n : forall s, s = stake n s ++ sdrop n s.
Proof. induction n as [|n IH]; intros [|c s]; cbn; auto. f_equal. apply IH. Qed.
Lemma take_length n : forall s, (n <= String.length s)%nat -> String.length (stake n s) = n.
Proof. induction n as [|n IH]; intros [|c s] H; cbn in *; try lia. f_equal. apply IH. lia. Qed.

(** ** The shapes of %g *)
(** ip . fr e X *)
Lemma value_shape ip fr ex x : ip <> "" -> all_chars digit ip -> all_chars digit fr ->
  (ex = "" /\ x = 0 \/ exists sg d, ex = "e" ++ sg ++ d /\ d <> "" /\ all_chars digit d /\
     (sg = "+" /\ x = dv 0 d \/ sg = "-" /\ x = - dv 0 d)) ->
  is_number (ip ++ point fr ++ ex) /\
  decimal_value (ip ++ point fr ++ ex) = (IZR (dv 0 (ip ++ fr)) * bpow ten (x - slen fr))%R.
Proof.
  intros Ne Ai Af Ex.
  assert (Nx : ~ first_is digit ex).
  { destruct Ex as [[-> _]|(sg & d & -> & _)]; [cbn; auto|]. cbn. unfold digit. cbn. lia. }
  assert (Np : forall r, ~ first_is digit (String "." r)) by (intros r; cbn; unfold digit; cbn; lia).
  split.
  - exists ip, (point fr), ex. split; [reflexivity|]. split; [exact Ne|]. split; [exact Ai|]. split.
    + destruct fr as [|c fr]; [left; reflexivity|right]. exists (String c fr). split; [reflexivity|exact Af].
    + destruct Ex as [[-> _]|(sg & d & -> & Hd & Ad & Hs)]; [left; reflexivity|right].
      exists "e", sg, d. repeat split; auto. destruct Hs as [[-> _]|[-> _]]; auto.
  - assert (X : forall k, match ex with String _ (String c u as w) =>
        if Ascii.eqb c "+" then fst (fst (digits_at u 0 0)) else if Ascii.eqb c "-" then - fst (fst (digits_at u 0 0))
        else fst (fst (digits_at w 0 0)) | _ => 0 end - k = x - k).
    { intros k. destruct Ex as [[-> ->]|(sg & d & -> & _ & _ & [[-> ->]|[-> ->]])]; reflexivity. }
    unfold decimal_value. destruct fr as [|c fr].
    + cbn [point append]. rewrite (digits_stop ip ex 0 0 Ai Nx). rewrite sapp_nil_r. cbn [String.length Z.of_nat].
      assert (E : match ex with String c u => if Ascii.eqb c "." then digits_at u (dv 0 ip) 0 else (dv 0 ip, 0, ex) | "" => (dv 0 ip, 0, ex) end = (dv 0 ip, 0, ex)).
      { destruct Ex as [[-> _]|(sg & d & -> & _)]; reflexivity. }
      rewrite E. rewrite (X 0). reflexivity.
    + cbn [point append].
      rewrite (digits_stop ip _ 0 0 Ai (Np _)). cbn [Ascii.eqb Bool.eqb].
      change (String c (fr ++ ex)) with (String c fr ++ ex).
      rewrite (digits_stop (String c fr) ex (dv 0 ip) 0 Af Nx).
      rewrite (X (0 + slen (String c fr))). rewrite Z.add_0_l, dv_app by auto. reflexivity.
Qed.

Lemma exponent_ok X : -999 <= X <= 999 ->
  exists sg d, exponent X = "e" ++ sg ++ d /\ d <> "" /\ all_chars digit d /\
     (sg = "+" /\ X = dv 0 d \/ sg = "-" /\ X = - dv 0 d).
Proof.
  intros H. unfold exponent.
  set (d := if Z.abs X <? 100 then digs 2 (Z.abs X) else digs 3 (Z.abs X)).
  assert (D : d <> "" /\ all_chars digit d /\ dv 0 d = Z.abs X).
  { unfold d. destruct (Z.ltb_spec (Z.abs X) 100).
    - destruct (digs_ok 2 (Z.abs X)) as (A & L & V); [lia|]. split; [|split; [exact A|]].
      + intros E. rewrite E in L. discriminate.
      + rewrite V. apply Z.mod_small. change (10 ^ Z.of_nat 2) with 100. lia.
    - destruct (digs_ok 3 (Z.abs X)) as (A & L & V); [lia|]. split; [|split; [exact A|]].
      + intros E. rewrite E in L. discriminate.
      + rewrite V. apply Z.mod_small. change (10 ^ Z.of_nat 3) with 1000. lia. }
  destruct D as (N & A & V). destruct (Z.ltb_spec X 0).
  - exists "-", d. split; [reflexivity|]. split; [exact N|]. split; [exact A|]. right. split; auto. lia.
  - exists "+", d. split; [reflexivity|]. split; [exact N|]. split; [exact A|]. left. split; auto. lia.
Qed.

Lemma strip_digits s : all_chars digit s -> all_chars digit (strip s) /\
  forall n p, (IZR (dv n (strip s)) * bpow ten (p - slen (strip s)) = IZR (dv n s) * bpow ten (p - slen s))%R.
Proof.
  intros A. destruct (strip_ok s) as (k & E). rewrite E in A at 1. apply all_app in A. destruct A as [A _].
  split; auto. intros n p. destruct (zeros_ok k) as (_ & L & V).
  rewrite E at 3. rewrite dv_app by auto. rewrite V. rewrite E at 4. rewrite slen_app, L, mult_IZR.
  rewrite (IZR_Zpower ten) by lia. rewrite Rmult_assoc, <- bpow_plus. do 2 f_equal. lia.
Qed.

Lemma format_ok P q X : (1 <= P)%nat -> 0 <= q < 10 ^ Z.of_nat P -> -999 <= X <= 999 ->
  is_number (format_g P q X) /\ decimal_value (format_g P q X) = (IZR q * bpow ten (X - Z.of_nat P + 1))%R.
Proof.
  intros HP Hq HX. unfold format_g. destruct (digs_ok P q) as (A & L & V); [lia|].
  rewrite Z.mod_small in V by lia. set (D := digs P q) in *.
  (* first n digits, the rest *)
  assert (S : forall n ex x, (1 <= n <= P)%nat ->
     (ex = "" /\ x = 0 \/ exists sg d, ex = "e" ++ sg ++ d /\ d <> "" /\ all_chars digit d /\
        (sg = "+" /\ x = dv 0 d \/ sg = "-" /\ x = - dv 0 d)) ->
     is_number (stake n D ++ point (strip (sdrop n D)) ++ ex) /\
     decimal_value (stake n D ++ point (strip (sdrop n D)) ++ ex) = (IZR q * bpow ten (x - (Z.of_nat P - Z.of_nat n)))%R).
  { intros n ex x Hn Hx. pose proof (take_drop n D) as T. rewrite T in A. apply all_app in A. destruct A as [A1 A2].
    destruct (strip_digits _ A2) as [A3 W].
    assert (Ln : String.length (stake n D) = n) by (apply take_length; lia).
    destruct (value_shape (stake n D) (strip (sdrop n D)) ex x) as [N E]; auto.
    { intros Z. rewrite Z in Ln. cbn in Ln. lia. }
    split; [exact N|]. rewrite E. rewrite dv_app by auto. rewrite W. rewrite <- dv_app by auto. rewrite <- T, V.
    assert (Ld : slen (sdrop n D) = Z.of_nat P - Z.of_nat n).
    { pose proof (f_equal String.length T) as F. rewrite slen_app, Ln in F. lia. }
    rewrite Ld. reflexivity. }
  destruct (Z.leb_spec (-4) X) as [H4|H4]; cbn [andb].
  destruct (Z.ltb_spec X (Z.of_nat P)) as [HPX|HPX].
  - destruct (Z.leb_spec 0 X) as [H0|H0].
    + destruct (S (Z.to_nat (X + 1)) "" 0) as [N E]; [lia|left; auto|]. rewrite !sapp_nil_r in *. split; auto.
      rewrite E. do 2 f_equal. lia.
    + set (F := zeros (Z.to_nat (- X - 1)) ++ D).
      destruct (zeros_ok (Z.to_nat (- X - 1))) as (Az & Lz & Vz).
      assert (AF : all_chars digit F) by (apply all_app; auto).
      destruct (strip_digits F AF) as [A3 W].
      destruct (value_shape "0" (strip F) "" 0) as [N E]; try discriminate; auto; [cbn; unfold digit; cbn; lia|].
      rewrite !sapp_nil_r in *. split; auto. rewrite E.
      assert (Z0 : forall s, dv 0 ("0" ++ s) = dv 0 s).
      { intros s. rewrite dv_app by (cbn; unfold digit; cbn; lia). reflexivity. }
      rewrite Z0, W. unfold F at 1. rewrite dv_app by auto. rewrite Vz, Z.mul_0_l, V. do 2 f_equal.
      unfold F. rewrite slen_app, Lz, L. lia.
  - destruct (S 1%nat (exponent X) X) as [N E]; [lia|right; apply exponent_ok; lia|]. split; auto.
    rewrite E. do 2 f_equal. lia.
  - destruct (S 1%nat (exponent X) X) as [N E]; [lia|right; apply exponent_ok; lia|]. split; auto.
    rewrite E. do 2 f_equal. lia.
Qed.

(** ** The decimal exponent and the significant digits *)
Open Scope R_scope.
Notation B10 := (bpow ten).
Lemma B10_pos e : 0 < B10 e. Proof. apply bpow_gt_0. Qed.
Lemma B10_S e : B10 (e + 1) = 10 * B10 e. Proof. rewrite bpow_plus_1. reflexivity. Qed.
Lemma B10_P e : B10 e = 10 * B10 (e - 1). Proof. rewrite <- B10_S. f_equal. lia. Qed.

Lemma exp_up_ok k : forall n d, (0 < d)%Z -> (d <= n)%Z -> IZR n < B10 (Z.of_nat k) * IZR d ->
  (0 <= exp_up k n d <= Z.of_nat k)%Z /\ B10 (exp_up k n d) * IZR d <= IZR n < B10 (exp_up k n d + 1) * IZR d.
Proof.
  induction k as [|k IH]; intros n d Hd Hn H.
  - exfalso. cbn in H. apply IZR_le in Hn. lra.
  - cbn [exp_up]. destruct (Z.leb_spec (10 * d) n) as [L|L].
    + destruct (IH n (10 * d)%Z) as [A B]; [lia|lia| |].
      * rewrite mult_IZR. rewrite Nat2Z.inj_succ in H. unfold Z.succ in H. rewrite B10_S in H. lra.
      * rewrite mult_IZR in B. rewrite !B10_S. rewrite B10_S in B. split; [lia|]. lra.
    + split; [lia|]. apply IZR_lt in L. rewrite mult_IZR in L. apply IZR_le in Hn. cbn. lra.
Qed.
Lemma exp_down_ok k : forall n d, (0 < n)%Z -> IZR d <= B10 (Z.of_nat k) * IZR n -> IZR n < 10 * IZR d ->
  (- Z.of_nat k <= exp_down k n d <= 0)%Z /\ B10 (exp_down k n d) * IZR d <= IZR n < B10 (exp_down k n d + 1) * IZR d.
Proof.
  induction k as [|k IH]; intros n d Hn H U.
  - cbn in *. split; [lia|]. lra.
  - cbn [exp_down]. destruct (Z.ltb_spec n d) as [L|L].
    + destruct (IH (10 * n)%Z d) as [A B]; [lia| | |].
      * rewrite mult_IZR. rewrite Nat2Z.inj_succ in H. unfold Z.succ in H. rewrite B10_S in H. lra.
      * rewrite mult_IZR. apply IZR_lt in L. lra.
      * rewrite mult_IZR in B. split; [lia|].
        replace (exp_down k (10 * n) d - 1 + 1)%Z with (exp_down k (10 * n) d) by lia.
        rewrite B10_S in B. pose proof (B10_P (exp_down k (10 * n) d)). nra.
    + split; [lia|]. apply IZR_le in L. cbn. lra.
Qed.
Lemma dec_exp_ok n d : (0 < n)%Z -> (0 < d)%Z -> IZR n < B10 400 * IZR d -> IZR d <= B10 400 * IZR n ->
  (-400 <= dec_exp n d <= 400)%Z /\ B10 (dec_exp n d) <= IZR n / IZR d < B10 (dec_exp n d + 1).
Proof.
  intros Hn Hd U L.
  assert (X : (-400 <= dec_exp n d <= 400)%Z /\ B10 (dec_exp n d) * IZR d <= IZR n < B10 (dec_exp n d + 1) * IZR d).
  { unfold dec_exp. destruct (Z.leb_spec d n) as [C|C].
    - destruct (exp_up_ok 400 n d Hd C U) as [A B]. split; [lia|exact B].
    - apply IZR_lt in C. assert (0 < IZR n) by now apply IZR_lt.
      destruct (exp_down_ok 400 n d Hn L) as [A B]; [lra|]. split; [lia|exact B]. }
  destruct X as [X1 [X2 X3]]. split; [exact X1|]. assert (0 < IZR d) by now apply IZR_lt. split.
  - apply Rmult_le_reg_r with (IZR d); auto. unfold Rdiv. rewrite Rmult_assoc, Rinv_l by lra. lra.
  - apply Rmult_lt_reg_r with (IZR d); auto. unfold Rdiv. rewrite Rmult_assoc, Rinv_l by lra. lra.
Qed.

Lemma rne_ok a b : (0 < b)%Z -> Rabs (IZR (rne a b) - IZR a / IZR b) <= / 2.
Proof.
  intros Hb. unfold rne. pose proof (Z.div_mod a b ltac:(lia)) as E. pose proof (Z.mod_pos_bound a b Hb) as M.
  set (q := (a / b)%Z) in *. set (r := (a mod b)%Z) in *.
  assert (Pb : 0 < IZR b) by now apply IZR_lt.
  assert (F : IZR a / IZR b = IZR q + IZR r / IZR b).
  { rewrite E, plus_IZR, mult_IZR. field. lra. }
  assert (T : forall t, IZR r / IZR b = t -> IZR r = t * IZR b) by (intros t <-; field; lra).
  specialize (T _ eq_refl). set (t := IZR r / IZR b) in *.
  assert (Hr : 0 <= IZR r < IZR b) by (split; [apply IZR_le; lia|apply IZR_lt; lia]).
  assert (T0 : 0 <= t) by (apply Rmult_le_reg_r with (IZR b); lra).
  assert (T1 : t < 1) by (apply Rmult_lt_reg_r with (IZR b); lra).
  rewrite F. destruct (Z.compare_spec (2 * r) b) as [C|C|C].
  - apply (f_equal IZR) in C. rewrite mult_IZR in C. assert (t = / 2) by nra.
    destruct (Z.even q); rewrite ?plus_IZR; apply Rabs_le; lra.
  - apply IZR_lt in C. rewrite mult_IZR in C. assert (t < / 2) by nra. apply Rabs_le; lra.
  - apply IZR_lt in C. rewrite mult_IZR in C. assert (/ 2 < t) by nra. rewrite plus_IZR. apply Rabs_le; lra.
Qed.

Lemma significant_ok P n d : (1 <= P)%nat -> (0 < n)%Z -> (0 < d)%Z -> IZR n < B10 400 * IZR d -> IZR d <= B10 400 * IZR n ->
  let q := fst (significant P n d) in let X := snd (significant P n d) in
  (0 <= q < 10 ^ Z.of_nat P)%Z /\ (-400 <= X <= 401)%Z /\
  exists X0, B10 X0 <= IZR n / IZR d /\
    Rabs (IZR q * B10 (X - Z.of_nat P + 1) - IZR n / IZR d) <= / 2 * B10 (X0 - Z.of_nat P + 1).
Proof.
  intros HP Hn Hd U L. destruct (dec_exp_ok n d Hn Hd U L) as [HX HB].
  unfold significant. set (X := dec_exp n d) in *. set (s := (Z.of_nat P - 1 - X)%Z).
  set (x := IZR n / IZR d) in *.
  set (q := if (0 <=? s)%Z then rne (n * 10 ^ s) d else rne n (d * 10 ^ (- s))).
  assert (Pd : 0 < IZR d) by now apply IZR_lt.
  assert (E : Rabs (IZR q - x * B10 s) <= / 2).
  { unfold q. destruct (Z.leb_spec 0 s) as [S|S].
    - replace (x * B10 s) with (IZR (n * 10 ^ s) / IZR d); [now apply rne_ok|].
      rewrite mult_IZR, (IZR_Zpower ten) by lia. unfold x. field. lra.
    - replace (x * B10 s) with (IZR n / IZR (d * 10 ^ (- s))).
      + apply rne_ok. apply Z.mul_pos_pos; auto. apply Z.pow_pos_nonneg; lia.
      + rewrite mult_IZR, (IZR_Zpower ten) by lia. rewrite bpow_opp. pose proof (B10_pos s). unfold x. field. split; lra. }
  pose proof (B10_pos s) as Ps.
  assert (V : x * B10 s < B10 (Z.of_nat P)).
  { replace (Z.of_nat P) with (X + 1 + s)%Z by (unfold s; lia). rewrite bpow_plus. apply Rmult_lt_compat_r; lra. }
  assert (V0 : 0 <= x * B10 s) by (pose proof (B10_pos X); apply Rmult_le_pos; lra).
  assert (Q : (0 <= q <= 10 ^ Z.of_nat P)%Z).
  { apply Rabs_le_inv in E. split.
    - apply Z.lt_succ_r, lt_IZR. rewrite succ_IZR. lra.
    - apply Z.lt_succ_r, lt_IZR. rewrite succ_IZR, (IZR_Zpower ten) by lia. lra. }
  assert (W : Rabs (IZR q * B10 (X - Z.of_nat P + 1) - x) <= / 2 * B10 (X - Z.of_nat P + 1)).
  { replace (IZR q * B10 (X - Z.of_nat P + 1) - x) with ((IZR q - x * B10 s) * B10 (X - Z.of_nat P + 1)).
    - rewrite Rabs_mult, (Rabs_pos_eq (B10 _)) by apply bpow_ge_0. apply Rmult_le_compat_r; [apply bpow_ge_0|exact E].
    - replace (X - Z.of_nat P + 1)%Z with (- s)%Z by (unfold s; lia). rewrite bpow_opp. field. lra. }
  destruct (Z.eqb_spec q (10 ^ Z.of_nat P)) as [C|C]; cbn [fst snd].
  - split; [split; [apply Z.pow_nonneg; lia|apply Z.pow_lt_mono_r; lia]|]. split; [lia|]. exists X. split; [lra|].
    replace (IZR (10 ^ (Z.of_nat P - 1)) * B10 (X + 1 - Z.of_nat P + 1)) with (IZR q * B10 (X - Z.of_nat P + 1)); [exact W|].
    rewrite C, !(IZR_Zpower ten) by lia. rewrite <- !bpow_plus. f_equal. lia.
  - split; [lia|]. split; [lia|]. exists X. split; [lra|exact W].
Qed.

(** ** Seventeen digits are enough *)
Lemma back_to_double x v e : generic_format radix2 dexp x -> B10 e <= x -> Rabs (v - x) <= / 2 * B10 (e - 16) -> drnd v = x.
Proof.
  intros F L H.
  assert (Px : 0 < x) by (eapply Rlt_le_trans; [apply B10_pos|exact L]).
  assert (G : B10 (e - 16) < x * bpow radix2 (-53)).
  { replace (e - 16)%Z with (e + -16)%Z by lia. rewrite bpow_plus. pose proof (B10_pos e).
    assert (B10 (-16) < bpow radix2 (-53)).
    { cbn. apply Rinv_lt_contravar; [|apply IZR_lt; reflexivity]. apply Rmult_lt_0_compat; apply IZR_lt; reflexivity. }
    apply Rle_lt_trans with (x * B10 (-16)); [apply Rmult_le_compat_r; [apply bpow_ge_0|exact L]|].
    apply Rmult_lt_compat_l; auto. }
  destruct (mag radix2 x) as [m Hm'] eqn:Em. pose proof (Hm' ltac:(lra)) as Hm. rewrite Rabs_pos_eq in Hm by lra.
  assert (U : x * bpow radix2 (-53) <= ulp radix2 dexp x).
  { rewrite ulp_neq_0 by lra. unfold cexp. rewrite Em. cbn [mag_val].
    apply Rle_trans with (bpow radix2 (m - 53)).
    - replace (m - 53)%Z with (m + -53)%Z by lia. rewrite bpow_plus. apply Rmult_le_compat_r; [apply bpow_ge_0|lra].
    - apply bpow_le. unfold FLT_exp. lia. }
  assert (D : x * bpow radix2 (-53) <= x - pred radix2 dexp x).
  { rewrite pred_eq_pos by lra. unfold pred_pos. rewrite Em. cbn [mag_val].
    destruct (Req_bool_spec x (bpow radix2 (m - 1))) as [E|E]; [|lra].
    apply Rle_trans with (bpow radix2 (dexp (m - 1))); [|lra].
    rewrite E at 1. rewrite <- bpow_plus. apply bpow_le. unfold FLT_exp. lia. }
  apply Rabs_le_inv in H. apply Rle_antisym.
  - apply round_N_le_midp; auto.
    + typeclasses eauto.
    + rewrite succ_eq_pos by lra. lra.
  - apply round_N_ge_midp; auto.
    + typeclasses eauto.
    + lra.
Qed.
