(** C83: the polynomials of a Sturm chain and its printed form. *)
From Coq Require Import String Ascii List Arith ZArith Reals Lra Lia.
From Verif Require Import Outcome Num PolySpec PolyModel PolyBase PolyProofs PolyCalc Descartes Isolate RootsModel Sturm.
From Verif Require Import ExprModel ExprSpec ParserModel ParserSpec ParserBase ReprProofs PropParser PrintModel PropPrint PropPyText PropFloatText SturmTextModel.
Import ListNotations.
Open Scope string_scope.
Open Scope nat_scope.

(** ** Specification *)

(** [r] is minus the remainder of the division of [p] by [q]. *)
Definition minus_remainder (p q r : list R) : Prop :=
  (exists m k, nth m q 0%R <> 0%R /\ (forall i, m < i -> nth i q 0%R = 0%R) /\ (forall i, m <= i -> nth i r 0%R = 0%R) /\
     forall x, pval p x = (pval k x * pval q x - pval r x)%R) \/
  ((forall i, nth i q 0%R = 0%R) /\ (forall i, nth i r 0%R = 0%R)).

(** ** The entries *)
Lemma neg_nth p i : nth i (poly_neg p) 0%R = (- nth i p 0)%R.
Proof.
  unfold poly_neg. revert i. induction p as [|a p IH]; intros [|i]; cbn; auto; try lra. 
Qed.
Lemma raise_nth n (p : list R) i : nth i (poly_raise n p) 0%R = nth i p 0%R.
Proof.
  unfold poly_raise. destruct (lt_dec i (length p)).
  - now rewrite app_nth1.
  - rewrite app_nth2 by lia. rewrite nth_repeat. symmetry. apply nth_overflow. lia.
Qed.
Lemma mrem_minus p q n : length p = S (S n) -> length q = S n -> minus_remainder p q (mrem p q).
Proof.
  intros Hp Hq. unfold mrem, poly_gcd, minus_remainder.
  assert (Pq : porder q = n) by (unfold porder; rewrite Hq; reflexivity).
  assert (Pp : porder p = S n) by (unfold porder; rewrite Hp; reflexivity).
  assert (Hpn : p <> []) by (intros ->; discriminate).
  pose proof (gcd_rec_correct p Hpn (porder q) q ltac:(lia) ltac:(lia)) as H. rewrite Pp, Pq in *.
  destruct (gcd_rec n p q) as [r|k r].
  - destruct H as (H1 & H2 & H3 & H4). right. split.
    + exact (pval_zero_pos q (fun x _ => H1 x)).
    + intros i. rewrite neg_nth, raise_nth, (pval_zero_pos r (fun x _ => H3 x) i : nth i r 0%R = 0%R). lra.
  - destruct H as (m & Hm & [Hd1 Hd2] & Hk & Hr & Hz & Hv). left. exists m, k.
    split; [exact Hd1|]. split; [exact Hd2|]. split.
    + intros i Hi. rewrite neg_nth, raise_nth. pose proof (Hz i Hi) as E. unfold get in E. cbn in E. rewrite E. lra.
    + intros x. rewrite poly_neg_correct, poly_raise_val, Hv. ring.
Qed.

Lemma tail_length n : forall p q i, length p = S n -> (n <> 0 -> length q = n) -> i < n ->
  length (nth i (chain_tail n p q) [0%R]) = n - i.
Proof.
  induction n as [|n IH]; intros p q i Hp Hq Hi; [lia|]. specialize (Hq ltac:(lia)).
  cbn [chain_tail]. destruct i as [|i]; cbn [nth]; [lia|].
  destruct (mrem_spec n p q Hp Hq) as [Hl _]. rewrite IH; auto; try lia.
Qed.
Lemma tail_step n : forall p q i, length p = S n -> (n <> 0 -> length q = n) -> i + 1 < n ->
  let c := p :: chain_tail n p q in
  minus_remainder (nth i c [0%R]) (nth (S i) c [0%R]) (nth (S (S i)) c [0%R]).
Proof.
  induction n as [|n IH]; intros p q i Hp Hq Hi c; [lia|]. specialize (Hq ltac:(lia)). subst c.
  destruct (mrem_spec n p q Hp Hq) as [Hl _].
  destruct i as [|i].
  - destruct n as [|n]; [lia|]. cbn [chain_tail nth]. eapply mrem_minus; eauto.
  - cbn [chain_tail]. change (nth (S (S (S i))) (p :: q :: chain_tail n q (mrem p q)) [0%R]) with (nth (S (S i)) (q :: chain_tail n q (mrem p q)) [0%R]).
    change (nth (S (S i)) (p :: q :: chain_tail n q (mrem p q)) [0%R]) with (nth (S i) (q :: chain_tail n q (mrem p q)) [0%R]).
    change (nth (S i) (p :: q :: chain_tail n q (mrem p q)) [0%R]) with (nth i (q :: chain_tail n q (mrem p q)) [0%R]).
    apply IH; auto; try lia.
Qed.

(** The entries of the chain of f: f itself, its derivative, then always minus the remainder of
    the two before; each has one coefficient less than the one before; beyond the last there is 0. *)
Theorem C83_entries : forall f, 2 <= length f ->
  let p := chain_get (sturm_chain f) in
  p 0 = f /\ (forall x, derivable_pt_lim (pval f) x (pval (p 1) x)) /\
  (forall i, i + 2 < length f -> minus_remainder (p i) (p (i + 1)) (p (i + 2))) /\
  (forall i, i < length f -> length (p i) = length f - i) /\
  (forall i x, length f <= i -> pval (p i) x = 0%R).
Proof.
  intros f Hf p. subst p. unfold chain_get, sturm_chain.
  assert (Hn : f <> []) by (intros ->; simpl in Hf; lia).
  pose proof (deriv_len f Hf) as Hd. pose proof (order_length f Hn) as Ho.
  split; [reflexivity|]. split; [|split; [|split]].
  - intros x. destruct (porder f) as [|m] eqn:E; [lia|]. cbn [chain_tail nth]. now apply poly_derivative_correct.
  - intros i Hi. replace (i + 1) with (S i) by lia. replace (i + 2) with (S (S i)) by lia.
    apply (tail_step (porder f) f (poly_derivative true f) i); lia.
  - intros [|i] Hi; cbn [nth]; [lia|]. rewrite tail_length; lia.
  - intros i x Hi. rewrite nth_overflow. { unfold pval. cbn. lra. } cbn [length]. rewrite chain_length. lia.
Qed.
Print Assumptions C83_entries.

(** ** The text *)
Definition line_gap : string := ("," ++ String (Ascii.ascii_of_nat 10) "           ")%string.

Lemma cat_lines sep : forall l a, String.concat sep (a :: l) = (a ++ fold_right (fun x acc => sep ++ x ++ acc) "" l)%string.
Proof.
  induction l as [|b l IH]; intros a; [cbn; now rewrite sapp_nil_r|].
  change (String.concat sep (a :: b :: l)) with (a ++ sep ++ String.concat sep (b :: l))%string. rewrite IH. reflexivity.
Qed.
Definition entry (show : R -> string) (name : string) (p : nat -> list R) (i : nat) : string :=
  ("p_" ++ decimal (Z.of_nat i) ++ "=" ++ poly_repr show name (p i))%string.

Lemma helper_form show name p n : forall c i max, length c = n -> S max = i + n -> (forall k, k < n -> p (i + k) = nth k c [0%R]) ->
  output_helper show name max c = fold_right (fun x acc => line_gap ++ x ++ acc)%string "" (map (entry show name p) (seq i n)).
Proof.
  induction n as [|n IH]; intros c i max Hl Hm Hp.
  { destruct c; [reflexivity|discriminate]. }
  destruct c as [|a t]; [discriminate|]. cbn [seq map fold_right].
  rewrite <- (IH t (S i) max); [|now injection Hl|lia|].
  2: { intros k Hk. replace (S i + k) with (i + S k) by lia. rewrite Hp by lia. reflexivity. }
  pose proof (Hp 0 ltac:(lia)) as H0. rewrite Nat.add_0_r in H0. cbn [nth] in H0.
  unfold entry, line_gap. rewrite H0, !sapp_assoc.
  assert (E : output_helper show name max (a :: t) =
     (entry_gap ++ put_size i ++ "=" ++ poly_repr show name a ++ output_helper show name max t)%string).
  { destruct t as [|b t].
    - cbn [output_helper]. replace max with i by (cbn in Hl; lia). now rewrite sapp_nil_r.
    - change (output_helper show name max (a :: b :: t)) with
        (entry_gap ++ put_size (max - Nat.pred (length (a :: b :: t))) ++ "=" ++ poly_repr show name a ++ output_helper show name max (b :: t))%string.
      replace (max - Nat.pred (length (a :: b :: t))) with i by (rewrite Hl; lia). reflexivity. }
  rewrite E, put_size_decimal. unfold entry_gap. rewrite !sapp_assoc. reflexivity.
Qed.

(** One line for each polynomial of the chain, with its number. *)
Theorem C83_text_form : forall show name f, 2 <= length f ->
  chain_text show name f =
  ("SturmChain{" ++ String.concat line_gap (map (entry show name (chain_get (sturm_chain f))) (seq 0 (length f))) ++ "}")%string.
Proof.
  intros show name f Hf. assert (Hn : f <> []) by (intros ->; simpl in Hf; lia).
  pose proof (order_length f Hn) as Ho. unfold chain_text. rewrite Ho. cbn [seq map]. rewrite cat_lines.
  unfold sturm_chain at 1.
  rewrite (helper_form show name (chain_get (sturm_chain f)) (porder f) _ 1).
  - unfold entry at 2. rewrite !sapp_assoc. reflexivity.
  - apply chain_length.
  - lia.
  - intros k Hk. reflexivity.
Qed.
Print Assumptions C83_text_form.

(** *** The text determines the polynomial *)
Lemma all_weaken (P Q : ascii -> Prop) s : (forall c, P c -> Q c) -> all_chars P s -> all_chars Q s.
Proof. intros H. induction s as [|c s IH]; simpl; auto. intros [A B]. auto. Qed.
Lemma digit_comma s : all_chars digit s -> lacks "," s.
Proof. apply all_weaken. intros c H ->. unfold digit in H. cbn in H. lia. Qed.
Lemma number_comma t : is_number t -> lacks "," t.
Proof.
  intros (ip & fp & ep & -> & Hi & Di & Hf & He). unfold lacks. rewrite !all_chars_app. split; [now apply digit_comma|]. split.
  - destruct Hf as [->|(d & -> & D)]; [exact I|]. split; [discriminate|now apply digit_comma].
  - destruct He as [->|(e & sg & d & -> & Hee & Hs & Hd & D)]; [exact I|].
    rewrite !all_chars_app. split; [destruct Hee as [-> | ->]; cbn; (split; [discriminate|exact I])|]. split; [|now apply digit_comma].
    destruct Hs as [->|[-> | ->]]; cbn; auto; (split; [discriminate|exact I]).
Qed.

Lemma word_comma t : is_name t -> lacks "," t.
Proof.
  intros [[_ W] _]. revert W. apply all_weaken. intros c H ->. unfold letter in H. cbn in H. lia.
Qed.
Lemma decimal_comma i : lacks "," (decimal (Z.of_nat i)).
Proof. apply number_comma. apply decimal_number. lia. Qed.
Lemma concat_lacks c sep l : lacks c sep -> Forall (lacks c) l -> lacks c (String.concat sep l).
Proof.
  intros Hs. induction 1 as [|a l Ha Hl IH]; [exact I|]. destruct l as [|b l]; [exact Ha|].
  change (String.concat sep (a :: b :: l)) with (a ++ sep ++ String.concat sep (b :: l))%string.
  apply lacks_app. split; auto. apply lacks_app. auto.
Qed.
Section Determines.
Variable read : string -> R.
Variable show : R -> string.
Variable name : string.
Hypothesis Hname : is_name name.
Definition readable (c : R) : Prop := plain_constant read show c \/ negative_constant read show c.
Lemma readable_comma c : readable c -> lacks "," (show c).
Proof.
  intros [[N _]|(t & -> & N & _)]; [now apply number_comma|]. split; [discriminate|now apply number_comma].
Qed.
Lemma poly_comma f : f <> [] -> Forall readable f -> lacks "," (poly_repr show name f).
Proof.
  intros Hf Hr. rewrite C64_text_form by auto. rewrite Forall_forall in Hr.
  apply lacks_app. split; [cbn; repeat split; discriminate|]. apply lacks_app. split; [|cbn; split; [discriminate|exact I]].
  apply concat_lacks; [cbn; repeat split; discriminate|]. apply Forall_forall. intros t Ht. apply in_map_iff in Ht.
  destruct Ht as (i & <- & Hi).
  assert (L : i < length f).
  { unfold written_degrees in Hi. set (l := filter _ _) in Hi.
    assert (F : forall j, In j l -> j < length f).
    { intros j Hj. apply filter_In in Hj. destruct Hj as [Hj _]. apply in_rev, in_seq in Hj. lia. }
    destruct l; [|auto]. destruct Hi as [<-|[]]. destruct f; [congruence|simpl; lia]. }
  assert (Hc : lacks "," (show (get f i))) by (apply readable_comma, Hr, nth_In, L).
  unfold term_text. destruct i as [|[|i]]; auto.
  - apply lacks_app. split; auto. apply lacks_app. split; [cbn; split; [discriminate|exact I]|now apply word_comma].
  - apply lacks_app. split; auto. apply lacks_app. split; [cbn; split; [discriminate|exact I]|].
    apply lacks_app. split; [now apply word_comma|]. apply lacks_app. split; [cbn; split; [discriminate|exact I]|]. apply decimal_comma.
Qed.
Definition readable_chain (f : list R) : Prop := Forall (Forall readable) (sturm_chain f).
Lemma count_lines l a : Forall (fun t => count "," t = 0) (a :: l) -> count "," (String.concat line_gap (a :: l)) = length l.
Proof.
  intros H. rewrite cat_lines. inversion H as [|? ? Ha Hl]; subst. rewrite count_app, Ha. cbn [plus]. clear -Hl.
  induction Hl as [|b l Hb Hl IH]; [reflexivity|]. cbn [fold_right length]. rewrite !count_app, Hb, IH. reflexivity.
Qed.
Lemma count_chain f : 2 <= length f -> readable_chain f -> count "," (chain_text show name f) = length f - 1.
Proof.
  intros Hf Hr. rewrite C83_text_form by auto. rewrite !count_app.
  change (count "," "SturmChain{") with 0. change (count "," "}") with 0.
  destruct (length f) as [|n] eqn:E; [lia|]. cbn [seq map]. rewrite count_lines.
  - rewrite map_length, seq_length. lia.
  - change (entry show name (chain_get (sturm_chain f)) 0 :: map (entry show name (chain_get (sturm_chain f))) (seq 1 n))
      with (map (entry show name (chain_get (sturm_chain f))) (seq 0 (S n))).
    rewrite Forall_map. apply Forall_forall. intros i Hi. apply in_seq in Hi. apply count_none. unfold entry.
    apply lacks_app. split; [cbn; repeat split; discriminate|]. apply lacks_app. split; [apply decimal_comma|].
    apply lacks_app. split; [cbn; split; [discriminate|exact I]|].
    destruct (C83_entries f ltac:(lia)) as (_ & _ & _ & L & _). specialize (L i ltac:(lia)).
    apply poly_comma; [intros Ez; rewrite Ez in L; simpl in L; lia|].
    unfold readable_chain in Hr. rewrite Forall_forall in Hr. apply Hr. unfold chain_get. apply nth_In.
    unfold sturm_chain. cbn [length]. rewrite chain_length. unfold porder. lia.
Qed.
Lemma comma_split : forall a a' b b', lacks "," a -> lacks "," a' -> a ++ String "," b = a' ++ String "," b' -> a = a'.
Proof.
  induction a as [|x a IH]; intros [|y a'] b b' A A' E; unfold lacks in *; simpl in *; auto.
  - injection E as <- _. destruct A'. congruence.
  - injection E as -> _. destruct A. congruence.
  - injection E as -> E. f_equal. eapply IH; eauto; tauto.
Qed.
Lemma chain_head f : 2 <= length f -> exists rest,
  chain_text show name f = ("SturmChain{p_0=" ++ poly_repr show name f ++ String "," rest)%string.
Proof.
  intros Hf. rewrite C83_text_form by auto. destruct (length f) as [|[|n]]; try lia. cbn [seq map]. rewrite cat_lines.
  cbn [fold_right]. unfold entry at 1. change (chain_get (sturm_chain f) 0) with f. unfold line_gap at 1.
  rewrite !sapp_assoc. eexists. reflexivity.
Qed.
Theorem C83_text_determines : forall f g, 2 <= length f -> 2 <= length g -> readable_chain f -> readable_chain g ->
  (forall i, 2 <= i < Nat.max (length f) (length g) -> read (decimal (Z.of_nat i)) = INR i) ->
  (chain_text show name f = chain_text show name g <-> f = g).
Proof.
  intros f g Hf Hg Rf Rg He. split; [|congruence]. intros E.
  assert (Lf : length f = length g).
  { pose proof (count_chain f Hf Rf). pose proof (count_chain g Hg Rg). rewrite E in *. lia. }
  assert (Pf : Forall readable f) by (unfold readable_chain, sturm_chain in Rf; now inversion Rf).
  assert (Pg : Forall readable g) by (unfold readable_chain, sturm_chain in Rg; now inversion Rg).
  assert (Nf : f <> []) by (intros ->; simpl in Hf; lia). assert (Ng : g <> []) by (intros ->; simpl in Hg; lia).
  destruct (chain_head f Hf) as (a & Ea), (chain_head g Hg) as (b & Eb). rewrite Ea, Eb in E.
  cbn [append] in E. injection E as E. apply comma_split in E; [|now apply poly_comma|now apply poly_comma].
  assert (Hc : forall c, In c f \/ In c g -> plain_constant read show c \/ negative_constant read show c).
  { rewrite Forall_forall in Pf, Pg. intros c [H|H]; [now apply Pf|now apply Pg]. }
  pose proof (proj1 (C64_text_determines read show name f g Nf Ng Hname Hc He) E) as C.
  apply nth_ext with 0%R 0%R; auto.
Qed.
End Determines.
Print Assumptions C83_text_determines.

(** The chain of 2x - 1 meets the hypotheses. *)
Example C83_case : readable_chain read_int show_signed [(-1)%R; 2%R].
Proof.
  assert (E : sturm_chain [(-1)%R; 2%R] = [[(-1)%R; 2%R]; [2%R]]).
  { unfold sturm_chain. cbn. do 3 f_equal. ring. }
  unfold readable_chain. rewrite E. repeat (apply Forall_cons || apply Forall_nil); apply integer_coefficient.
Qed.
