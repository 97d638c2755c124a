(** C64: the printed form of a polynomial. *)
From Coq Require Import String Ascii NArith ZArith Reals Decimal DecimalString DecimalZ Lra Lia.
From Verif Require Import Outcome Num PolySpec PolyModel PolyBase PolyProofs PolyCalc Descartes ExprModel ExprSpec ExprBase ExprVal ExprDeriv
  ParserModel ParserSpec ParserBase ParserProofs ParserSound ParserComplete ReprProofs PropParser PrintModel.
Open Scope nat_scope.
Open Scope string_scope.

Lemma put_size_decimal i : put_size i = decimal (Z.of_nat i).
Proof. destruct i; reflexivity. Qed.

Section PolyText.
Variable read : string -> R.
Variable show : R -> string.
Variable name : string.
Variable f : list R.
Hypothesis Hname : is_name name.
Hypothesis Hcoef : forall c, In c f -> plain_constant read show c \/ negative_constant read show c.
Hypothesis Hexp : forall i, 2 <= i < length f -> read (decimal (Z.of_nat i)) = INR i.
Notation denote := (denote read).
Notation sentence := (sentence read).

(** the text [s] is a sum of terms whose value is [v] where the variable is [x] *)
Definition prints_c (c : cst) (s : string) : Prop :=
  forall rest us, breaks rest -> layout rest us -> layout (s ++ rest) (tokens c ++ us)%list.
Definition good_sum (c : cst) (s : string) : Prop :=
  prints_c c s /\ sentence c /\ grouped c /\ postfix_ordered c /\
  (forall r, In r (right_edge c) -> keeps r BAdd).
Definition has_value (c : cst) (F : R -> R) : Prop :=
  forall s env v, env name = Some (VN v) -> value_of s env (denote c) = Some (VN (F v)).

Definition pow_cst (i : nat) : cst :=
  if Nat.ltb 1 i then CBin BPow (CVar name) (CNum (decimal (Z.of_nat i))) else CVar name.

Lemma pow_prints i rest us : breaks rest -> layout rest us ->
  layout (name ++ (if Nat.ltb 1 i then "^" ++ put_size i else "") ++ rest) (tokens (pow_cst i) ++ us)%list.
Proof.
  intros B L. unfold pow_cst. destruct (Nat.ltb 1 i); cbn [tokens op_tok close_tok app append].
  - apply layout_tok; [right; left; apply Hname|apply (breaks_sym "^"); simpl; tauto|].
    apply (layout_sym "^"); [simpl; tauto|]. rewrite put_size_decimal. apply layout_tok; auto.
    left. apply decimal_number. lia.
  - apply layout_tok; auto. right; left; apply Hname.
Qed.

Lemma pow_value i s env v : 1 <= i < length f -> env name = Some (VN v) ->
  value_of s env (denote (pow_cst i)) = Some (VN (v ^ i)%R).
Proof.
  intros Hi E. unfold pow_cst. destruct (Nat.ltb_spec 1 i) as [H|H].
  - cbn [ParserSpec.denote]. unfold value_of. cbn [eval]. rewrite E, (Hexp i) by lia.
    unfold vbin, nbin. rewrite INR_IZR_INZ, npow_int by (right; lia). cbn [option_map].
    rewrite <- pow_powerRZ. reflexivity.
  - replace i with 1 by lia. cbn. rewrite E. now rewrite Rmult_1_r.
Qed.

Definition term_cst (c : R) (i : nat) : cst :=
  match const_cst show c with
  | CNeg (CNum t) => CNeg (CBin BMul (CNum t) (pow_cst i))
  | k => CBin BMul k (pow_cst i)
  end.

Lemma term_good c i : In c f -> 1 <= i < length f ->
  good_sum (term_cst c i) (show c ++ "*" ++ name ++ (if Nat.ltb 1 i then "^" ++ put_size i else "")) /\
  (forall o, In o (left_edge (term_cst c i)) -> yields (Infix BAdd) o) /\
  has_value (term_cst c i) (fun v => c * v ^ i)%R.
Proof.
  intros Hc Hi. unfold term_cst.
  assert (Pe : forall r, In r (right_edge (pow_cst i)) -> keeps r BAdd).
  { unfold pow_cst. destruct (Nat.ltb 1 i); simpl; [|tauto]. intros r [<-|[]]. left. simpl. lia. }
  assert (Pl : forall p, In p (left_edge (pow_cst i)) -> yields (Infix BMul) p).
  { unfold pow_cst. destruct (Nat.ltb 1 i); simpl; [|tauto]. intros p [<-|[]]. left. simpl. lia. }
  assert (Pg : sentence (pow_cst i) /\ grouped (pow_cst i) /\ postfix_ordered (pow_cst i)).
  { unfold pow_cst. destruct (Nat.ltb 1 i); simpl; repeat split; auto; try tauto; try apply Hname.
    apply decimal_number. lia. }
  destruct Pg as (Ps & Pg & Po).
  destruct (Hcoef c Hc) as [P|P].
  - rewrite (plain_cst _ _ _ P). destruct P as [N R]. split; [|split].
    + repeat split; auto.
      * intros rest us B L. rewrite !sapp_assoc. cbn [tokens op_tok close_tok app].
        apply layout_tok; [left; auto|apply (breaks_sym "*"); simpl; tauto|].
        apply (layout_sym "*"); [simpl; tauto|]. rewrite app_nil_r. now apply pow_prints.
      * simpl. tauto.
      * simpl. intros r [<-|Hr]; auto. left. simpl. lia.
    + simpl. intros o [<-|[]]. left. simpl. lia.
    + intros s env v E. cbn [ParserSpec.denote]. unfold value_of. cbn [eval andb].
      pose proof (pow_value i s env v Hi E) as V. unfold value_of in V. rewrite V, R. reflexivity.
  - destruct (negative_cst _ _ _ P) as (t & E & N & R & ->). split; [|split].
    + repeat split; auto.
      * intros rest us B L. rewrite E, !sapp_assoc. cbn [tokens op_tok close_tok app].
        apply (layout_sym "-"); [simpl; tauto|].
        apply layout_tok; [left; auto|apply (breaks_sym "*"); simpl; tauto|].
        apply (layout_sym "*"); [simpl; tauto|]. rewrite app_nil_r. now apply pow_prints.
      * simpl. tauto.
      * simpl. intros o [<-|[]]. unfold sign_level. simpl. lia.
      * simpl. intros r [<-|[<-|Hr]]; auto; [unfold keeps, sign_level; simpl; lia|left; simpl; lia].
    + simpl. tauto.
    + intros s env v Ev. cbn [ParserSpec.denote]. unfold value_of. cbn [eval andb].
      pose proof (pow_value i s env v Hi Ev) as V. unfold value_of in V. rewrite V. cbn.
      f_equal. f_equal. rewrite <- R. cbn. ring.
Qed.

Lemma const_good c : In c f ->
  good_sum (const_cst show c) (show c) /\ (forall o, In o (left_edge (const_cst show c)) -> yields (Infix BAdd) o) /\
  has_value (const_cst show c) (fun _ => c).
Proof.
  intros Hc. destruct (Hcoef c Hc) as [P|P].
  - rewrite (plain_cst _ _ _ P). destruct P as [N R]. repeat split; auto; simpl; try tauto.
    + intros rest us B L. apply layout_tok; auto. left; auto.
    + intros s env v _. cbn. now rewrite R.
  - destruct (negative_cst _ _ _ P) as (t & E & N & R & ->). repeat split; auto; simpl; try tauto.
    + intros rest us B L. rewrite E, sapp_assoc. cbn [tokens app]. apply (layout_sym "-"); [simpl; tauto|].
      apply layout_tok; auto. left; auto.
    + intros r [<-|[]]. unfold sign_level. simpl. lia.
    + intros s env v _. cbn. now rewrite <- R.
Qed.

Lemma add_good a sa Fa b sb Fb : good_sum a sa -> has_value a Fa -> good_sum b sb ->
  (forall o, In o (left_edge b) -> yields (Infix BAdd) o) -> has_value b Fb ->
  good_sum (CBin BAdd a b) (sa ++ " + " ++ sb) /\ has_value (CBin BAdd a b) (fun v => Fa v + Fb v)%R.
Proof.
  intros (La & Sa & Ga & Pa & Ra) Va (Lb & Sb & Gb & Pb & Rb) Eb Vb. split.
  - repeat split; auto.
    + intros rest us B L. rewrite !sapp_assoc. cbn [tokens op_tok close_tok]. rewrite <- app_assoc. apply La.
      * apply breaks_char; reflexivity.
      * change (" + " ++ sb ++ rest) with (" " ++ "+" ++ " " ++ sb ++ rest). apply layout_space.
        cbn [app]. apply (layout_sym "+"); [simpl; tauto|]. apply layout_space. rewrite app_nil_r. now apply Lb.
    + destruct a; auto. intros Hb. destruct o; simpl in Hb; try discriminate; simpl; lia.
    + simpl. intros r [<-|Hr]; auto. right. auto.
  - intros s env v E. cbn [ParserSpec.denote]. unfold value_of. cbn [eval].
    pose proof (Va s env v E) as A. pose proof (Vb s env v E) as B. unfold value_of in A, B. rewrite A, B. reflexivity.
Qed.

(** the terms of degree m and above *)
Definition high (m : nat) (v : R) : R := (v ^ m * pval (skipn m f) v)%R.
Lemma high_step m v : high m v = (get f m * v ^ m + high (S m) v)%R.
Proof. unfold high. rewrite pval_skipn_step. simpl. ring. Qed.
Lemma high_end m v : length f <= m -> high m v = 0%R.
Proof. intros H. unfold high. rewrite skipn_all2 by lia. rewrite pval_nil. ring. Qed.

Definition text_inv (m : nat) (st : nat * string) : Prop :=
  (fst st = 0 /\ snd st = "P(" /\ forall v, high m v = 0%R) \/
  (fst st <> 0 /\ exists c s, snd st = "P(" ++ s /\ good_sum c s /\ has_value c (high m)).

Lemma has_value_ext c F G : (forall v, F v = G v) -> has_value c F -> has_value c G.
Proof. intros E H s env v Ev. rewrite (H s env v Ev), E. reflexivity. Qed.

Lemma step_inv i st : 1 <= i < length f -> text_inv (S i) st -> text_inv i (repr_step show name f i st).
Proof.
  intros Hi I. destruct st as [terms oss]. unfold repr_step. cbn [neqb R_num n0].
  change (neqb (get f i) n0) with (Reqb (get f i) 0%R).
  destruct (Reqb_spec (get f i) 0%R) as [Z|NZ].
  - destruct I as [(A & B & C)|(A & c & s & B & C & V)]; [left|right]; cbn [fst snd] in *.
    + split; auto. split; auto. intros v. rewrite high_step, Z, C. ring.
    + split; auto. exists c, s. split; auto. split; auto. eapply has_value_ext; [|exact V].
      intros v. rewrite (high_step i), Z. ring.
  - right. cbn [fst snd]. split; [discriminate|].
    destruct (term_good (get f i) i) as (Tg & Tl & Tv); auto. { apply nth_In. lia. }
    destruct I as [(A & B & C)|(A & c & s & B & C & V)]; cbn [fst snd] in *.
    + subst. cbn [Nat.eqb append]. eexists; eexists. split; [reflexivity|]. split; [exact Tg|].
      eapply has_value_ext; [|exact Tv]. intros v. cbn beta. rewrite (high_step i), C. ring.
    + destruct (Nat.eqb_spec terms 0) as [|_]; [contradiction|]. subst.
      destruct (add_good _ _ _ _ _ _ C V Tg Tl Tv) as [G W].
      eexists; eexists. split; [|split; [exact G|]]; [now rewrite !sapp_assoc|].
      eapply has_value_ext; [|exact W]. intros v. cbn beta. rewrite (high_step i). ring.
Qed.

Lemma poly_text : f <> [] ->
  exists s c, poly_repr show name f = "P(" ++ s ++ ")" /\ good_sum c s /\ has_value c (pval f).
Proof.
  intros Hf. unfold poly_repr.
  assert (I : text_inv 1 (for_down (porder f) (porder f) (repr_step show name f) (0, "P("))).
  { pose proof (for_down_inv (fun k st => text_inv (length f - k) st) (repr_step show name f) (porder f) 0 (porder f) (0, "P(")) as H.
    cbn beta in H. assert (L : length f <> 0) by (destruct f; [congruence|discriminate]). unfold porder in *.
    replace (length f - (0 + Nat.pred (length f))) with 1 in H by lia. apply H.
    - left. split; auto. split; auto. intros v. apply high_end. lia.
    - intros j st Hj It. replace (length f - S (0 + j)) with (Nat.pred (length f) - j) by lia.
      apply step_inv; [lia|]. now replace (S (Nat.pred (length f) - j)) with (length f - (0 + j)) by lia. }
  destruct (for_down _ _ _ _) as [terms oss].
  assert (V0 : forall v, pval f v = (get f 0 + high 1 v)%R).
  { intros v. pose proof (high_step 0 v) as H. unfold high at 1 in H. simpl in H. lra. }
  change (neqb (get f 0) n0) with (Reqb (get f 0) 0%R).
  assert (H0 : In (get f 0) f) by (apply nth_In; destruct f; [congruence|simpl; lia]).
  destruct (const_good _ H0) as (Cg & Cl & Cv).
  destruct I as [(A & B & C)|(A & c & s & B & C & V)]; cbn [fst snd] in *.
  - subst. rewrite Bool.orb_true_r. cbn [Nat.eqb append]. eexists; eexists. split; [reflexivity|]. split; [exact Cg|].
    eapply has_value_ext; [|exact Cv]. intros v. cbn beta. rewrite V0, C. ring.
  - subst. destruct (Nat.eqb_spec terms 0) as [|_]; [contradiction|]. rewrite Bool.orb_false_r.
    destruct (Reqb_spec (get f 0) 0%R) as [Z|NZ]; cbn [negb].
    + exists s, c. split; [now rewrite !sapp_assoc|]. split; auto. eapply has_value_ext; [|exact V].
      intros v. rewrite V0, Z. ring.
    + destruct (add_good _ _ _ _ _ _ C V Cg Cl Cv) as [G W].
      eexists; eexists. split; [|split; [exact G|]]; [now rewrite !sapp_assoc|].
      eapply has_value_ext; [|exact W]. intros v. cbn beta. rewrite V0. ring.
Qed.
End PolyText.

(** ** C64 *)

(** The text of one term: c*x^i, c*x, or c. *)
Definition term_text {K} (show : K -> string) (name : string) (c : K) (i : nat) : string :=
  match i with
  | 0 => show c
  | 1 => show c ++ "*" ++ name
  | _ => show c ++ "*" ++ name ++ "^" ++ decimal (Z.of_nat i)
  end.

(** The degrees of the terms that are not zero, highest first; the constant term
    alone if there are none. *)
Definition written_degrees {K} `{Num K} (f : list K) : list nat :=
  match filter (fun i => negb (neqb (get f i) n0)) (rev (seq 0 (length f))) with
  | [] => [0]
  | l => l
  end.

Lemma concat_snoc sep (l : list string) x : String.concat sep (l ++ [x]) =
  match l with [] => x | _ => String.concat sep l ++ sep ++ x end.
Proof.
  induction l as [|a l IH]; [reflexivity|]. destruct l as [|b l]; [reflexivity|].
  change (String.concat sep ((a :: b :: l) ++ [x])) with (a ++ sep ++ String.concat sep ((b :: l) ++ [x])).
  rewrite IH. change (String.concat sep (a :: b :: l)) with (a ++ sep ++ String.concat sep (b :: l)).
  now rewrite !sapp_assoc.
Qed.

Section Form.
Context {K : Type} `{Num K}.
Variable show : K -> string.
Variable name : string.
Variable f : list K.
Let nz (i : nat) : bool := negb (neqb (get f i) n0).

Definition form_state (l : list nat) : nat * string :=
  (length l, "P(" ++ String.concat " + " (map (fun i => term_text show name (get f i) i) l)).

Lemma rev_seq_snoc a n : rev (seq a (S n)) = (rev (seq (S a) n) ++ [a])%list.
Proof. reflexivity. Qed.

Lemma form_step i l : 1 <= i -> repr_step show name f i (form_state l) = form_state (l ++ (if nz i then [i] else []))%list.
Proof.
  intros Hi. unfold repr_step, form_state, nz. destruct (neqb (get f i) n0); cbn [negb].
  - now rewrite app_nil_r.
  - rewrite app_length, map_app, Nat.add_comm. f_equal. cbn [map].
    rewrite concat_snoc, sapp_assoc. f_equal.
    assert (T : term_text show name (get f i) i = show (get f i) ++ "*" ++ name ++ (if Nat.ltb 1 i then "^" ++ put_size i else "")).
    { rewrite put_size_decimal. destruct i as [|[|i]]; [lia| |reflexivity]. simpl. now rewrite sapp_nil_r. }
    rewrite <- T. destruct l as [|a l]; reflexivity.
Qed.

Lemma form_loop cnt : forall hi l, cnt <= hi ->
  for_down hi cnt (repr_step show name f) (form_state l) =
  form_state (l ++ filter nz (rev (seq (S hi - cnt) cnt)))%list.
Proof.
  induction cnt as [|c IH]; intros hi l Hc; cbn [for_down]; [simpl; now rewrite app_nil_r|].
  rewrite form_step by lia. rewrite IH by lia. rewrite <- app_assoc. f_equal. f_equal.
  replace (S (Nat.pred hi) - c) with (S hi - S c) by lia.
  rewrite seq_S, rev_app_distr. replace (S hi - S c + c) with hi by lia.
  cbn [rev app filter]. destruct (nz hi); reflexivity.
Qed.

Lemma poly_form : f <> [] -> poly_repr show name f =
  "P(" ++ String.concat " + " (map (fun i => term_text show name (get f i) i) (written_degrees f)) ++ ")".
Proof.
  intros Hf. unfold poly_repr, written_degrees. change (0, "P(") with (form_state []).
  rewrite form_loop by lia. unfold porder. assert (L : length f <> 0) by (destruct f; [congruence|discriminate]).
  replace (S (Nat.pred (length f)) - Nat.pred (length f)) with 1 by lia. cbn [app].
  assert (E : filter (fun i => negb (neqb (get f i) n0)) (rev (seq 0 (length f))) =
              (filter nz (rev (seq 1 (Nat.pred (length f)))) ++ (if nz 0 then [0] else []))%list).
  { destruct (length f) as [|n]; [congruence|]. rewrite rev_seq_snoc, filter_app. reflexivity. }
  rewrite E. set (l := filter nz (rev (seq 1 (Nat.pred (length f))))). unfold form_state.
  change (negb (neqb (get f 0) n0)) with (nz 0).
  destruct (nz 0); cbn [orb].
  - destruct l as [|a l]; [reflexivity|].
    cbn [length Nat.eqb app]. rewrite !sapp_assoc. f_equal.
    change (a :: l ++ [0])%list with ((a :: l) ++ [0])%list. rewrite map_app. cbn [map]. rewrite concat_snoc, !sapp_assoc.
    reflexivity.
  - rewrite app_nil_r. destruct l as [|a l]; [reflexivity|]. cbn [length Nat.eqb]. now rewrite !sapp_assoc.
Qed.
End Form.

(** The text: the non-zero terms, highest degree first, joined by " + ", in P(...);
    the zero polynomial is written as its constant coefficient. *)
Theorem C64_text_form : forall (K : Type) (N : Num K) (show : K -> string) name (f : list K), f <> [] ->
  poly_repr show name f =
  "P(" ++ String.concat " + " (map (fun i => term_text show name (get f i) i) (written_degrees f)) ++ ")".
Proof. intros. now apply poly_form. Qed.
Print Assumptions C64_text_form.

(** What is between the parentheses is an expression the library reads back, and
    the expression has the value of the polynomial everywhere. *)
Theorem C64_text_value : forall (read : string -> R) (show : R -> string) name (f : list R),
  f <> [] -> is_name name ->
  (forall c, In c f -> plain_constant read show c \/ negative_constant read show c) ->
  (forall i, 2 <= i < length f -> read (decimal (Z.of_nat i)) = INR i) ->
  exists t e, poly_repr show name f = "P(" ++ t ++ ")" /\ parse read show t = Ret e /\
    forall s env v, env name = Some (VN v) -> value_of s env e = Some (VN (pval f v)).
Proof.
  intros read show name f Hf Hn Hc He.
  destruct (poly_text read show name f Hn Hc He Hf) as (t & c & E & (L & S & G & P & _) & V).
  exists t, (denote read c). split; auto. split; [|exact V].
  apply parse_complete; auto. specialize (L "" [] breaks_nil (layout_nil 0)).
  now rewrite sapp_nil_r, app_nil_r in L.
Qed.
Print Assumptions C64_text_value.

(** Hence the text determines the polynomial, up to zero coefficients at the top. *)
Theorem C64_text_determines : forall (read : string -> R) (show : R -> string) name (f g : list R),
  f <> [] -> g <> [] -> is_name name ->
  (forall c, In c f \/ In c g -> plain_constant read show c \/ negative_constant read show c) ->
  (forall i, 2 <= i < Nat.max (length f) (length g) -> read (decimal (Z.of_nat i)) = INR i) ->
  (poly_repr show name f = poly_repr show name g <-> forall i, nth i f 0%R = nth i g 0%R).
Proof.
  intros read show name f g Hf Hg Hn Hc He. split.
  - intros E.
    destruct (C64_text_value read show name f) as (t & e & Ef & P & V); auto. { intros i Hi. apply He. lia. }
    destruct (C64_text_value read show name g) as (t' & e' & Eg & P' & V'); auto. { intros i Hi. apply He. lia. }
    assert (t = t').
    { rewrite Ef, Eg in E. change ("P(" ++ t ++ ")" = "P(" ++ t' ++ ")") in E. cbn [append] in E.
      injection E as E. clear -E. revert t' E. induction t as [|a t IH]; intros [|b t'] E; auto; cbn in E.
      - injection E as -> E. now destruct t'.
      - injection E as -> E. now destruct t.
      - injection E as -> E. f_equal. auto. }
    subst t'. assert (e = e') by congruence. subst e'.
    intros i. change (get f i = get g i). apply pval_eq_get. intros x _.
    pose proof (V 0%R (fun _ => Some (VN x)) x eq_refl) as A.
    pose proof (V' 0%R (fun _ => Some (VN x)) x eq_refl) as B. congruence.
  - intros E. rewrite !C64_text_form by auto. f_equal. f_equal.
    assert (W : written_degrees f = written_degrees g).
    { unfold written_degrees.
      assert (F : forall n, filter (fun i => negb (neqb (get f i) n0)) (rev (seq 0 n)) =
                            filter (fun i => negb (neqb (get g i) n0)) (rev (seq 0 n))).
      { intros n. apply filter_ext. intros i. unfold get. cbn [n0 R_num]. now rewrite E. }
      assert (M : forall (h : list R) k, filter (fun i => negb (neqb (get h i) n0)) (rev (seq 0 (length h + k))) =
                                        filter (fun i => negb (neqb (get h i) n0)) (rev (seq 0 (length h)))).
      { intros h k. induction k as [|k IH]; [now rewrite Nat.add_0_r|].
        replace (length h + S k) with (S (length h + k)) by lia. rewrite seq_S, rev_app_distr. cbn [rev app filter].
        rewrite IH. unfold get. rewrite nth_overflow by lia.
        change (neqb n0 n0) with (Reqb 0%R 0%R). destruct (Reqb_spec 0%R 0%R); [reflexivity|congruence]. }
      rewrite <- (M f (length g)), <- (M g (length f)), F, (Nat.add_comm (length g)). reflexivity. }
    rewrite W. f_equal. apply map_ext. intros i. unfold get. cbn [n0 R_num]. now rewrite E.
Qed.
Print Assumptions C64_text_determines.

(** The whole text, with its P( and ), is not an expression: the parser refuses
    every string that begins like this. *)
Lemma parse_refuses_P (K : Type) (EN : ENum K) (read : string -> K) show rest :
  parse read show ("P(" ++ rest) = Throw.
Proof. reflexivity. Qed.
Theorem C64_whole_text_refuted : forall (read : string -> R) (show : R -> string) name (f : list R),
  f <> [] -> parse read show (poly_repr show name f) = Throw.
Proof.
  intros. rewrite C64_text_form by auto. apply parse_refuses_P.
Qed.
Print Assumptions C64_whole_text_refuted.

(** Integer coefficients of either sign meet the hypotheses. *)
Definition show_signed (x : R) : string := decimal (Int_part x).
Lemma Int_part_IZR z : Int_part (IZR z) = z.
Proof.
  unfold Int_part. pose proof (up_tech (IZR z) z) as U. rewrite <- U; [lia|lra|]. apply IZR_lt. lia.
Qed.
Lemma integer_coefficient z : plain_constant read_int show_signed (IZR z) \/ negative_constant read_int show_signed (IZR z).
Proof.
  unfold plain_constant, negative_constant, show_signed, read_int. rewrite Int_part_IZR.
  destruct (Z.le_gt_cases 0 z) as [P|P].
  - left. destruct (decimal_number z P) as [A B]. rewrite B. auto.
  - right. exists (decimal (- z)). destruct (decimal_number (- z)) as [A B]; [lia|].
    destruct z as [|p|p]; try lia. repeat split; auto. rewrite B. cbn [nopp R_enum enum_num R_num]. 
    simpl. now rewrite <- opp_IZR.
Qed.
Example C64_ex : forall zs, zs <> [] ->
  exists t e, poly_repr show_signed "x" (map IZR zs) = "P(" ++ t ++ ")" /\ parse read_int show_signed t = Ret e /\
    forall s env v, env "x" = Some (VN v) -> value_of s env e = Some (VN (pval (map IZR zs) v)).
Proof.
  intros zs Hz. apply C64_text_value.
  - destruct zs; [congruence|discriminate].
  - now apply name1.
  - intros c Hc. apply in_map_iff in Hc. destruct Hc as (z & <- & _). apply integer_coefficient.
  - intros i _. unfold read_int. destruct (decimal_number (Z.of_nat i)) as [_ ->]; [lia|]. now rewrite <- INR_IZR_INZ.
Qed.
Example C64_ex_text : poly_repr (H := Z_num) decimal "x" [5; 0; -3; 1; 0]%Z = "P(1*x^3 + -3*x^2 + 5)" /\
  poly_repr (H := Z_num) decimal "x" [0; -7]%Z = "P(-7*x)" /\
  poly_repr (H := Z_num) decimal "x" [0; 0; 0]%Z = "P(0)".
Proof. repeat split. Qed.
