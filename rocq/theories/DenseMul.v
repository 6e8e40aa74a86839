(** Dense multiplication and powers. *)

From Coq Require Import List NArith ZArith Lia Bool Ring Arith.
From Coq Require Import ZifyBool ZifyNat ZifyN.
From Verif Require Import Base Num Spec SpecFacts Laws Terms Dense DenseFacts DenseArith.
Import ListNotations.

Lemma zipM_prefix {A B} (f : A -> B -> res A) l m : (length m <= length l)%nat ->
  zipM f l m = (r <- zipM f (firstn (length m) l) m ;; Ok (r ++ skipn (length m) l)).
Proof.
  revert m. induction l as [|x l IH]; intros [|y m] H; simpl in *; try lia; try reflexivity.
  destruct (f x y) as [z| |]; simpl; try reflexivity.
  rewrite IH by lia. destruct (zipM f (firstn (length m) l) m); reflexivity.
Qed.

Section DenseMul.
Context {T : Type} (O : num T) (R : comring) (den : T -> car R) (L : lawful O R den).
Add Ring Rring_dm : (r_theory R).
Notation dc := (dcoef R den).

Lemma mul_row_coef rt lhs tail r k : length tail = (length lhs + k)%nat ->
  mul_row O rt lhs tail = Ok r ->
  length r = length tail /\
  forall d, dc r d = radd (dc tail d) (if Nat.ltb d k then r0 else rmul (den rt) (dc lhs (d - k))).
Proof.
  intros Hl H. pose proof (zipM_length _ _ _ _ H) as Hr. split; [exact Hr|]. intros d.
  unfold mul_row in H. rewrite zipM_prefix in H by lia. inv_ok.
  set (t1 := firstn (length lhs) tail) in *. set (t2 := skipn (length lhs) tail) in *.
  assert (H1 : length t1 = length lhs) by (unfold t1; rewrite firstn_length; lia).
  assert (H2 : length t2 = k) by (unfold t2; rewrite skipn_length; lia).
  assert (Ht : tail = t1 ++ t2) by (unfold t1, t2; symmetry; apply firstn_skipn).
  clearbody t1 t2. subst tail. rewrite !dcoef_app, H2.
  destruct (Nat.ltb_spec d k); [ring|].
  destruct (Nat.ltb_spec (d - k) (length lhs)).
  - rewrite (zipM_coef R den (fun t l => p <- mul O rt l ;; add O t p)
        (fun x y => radd x (rmul (den rt) y))) with (l := t1) (m := lhs); auto; try lia.
    intros x y z Hz. inv_ok. rewrite (lw_add _ _ _ L _ _ _ Hz), (lw_mul _ _ _ L _ _ _ E0). reflexivity.
  - rewrite !dcoef_overflow by (rewrite ?(zipM_length _ _ _ _ E); lia). ring.
Qed.

Lemma pmul_dcons c l (q : poly R) d :
  pmul (dc (c :: l)) q d =
  radd (if Nat.ltb d (length l) then r0 else rmul (den c) (q (d - length l)%nat)) (pmul (dc l) q d).
Proof.
  assert (H : peq (dc (c :: l)) (padd (pmono (den c) (length l)) (dc l))).
  { unfold dcoef. simpl. rewrite <- (map_length den l). apply be_coef_cons_pmono. }
  rewrite (pmul_ext _ _ _ _ H (peq_refl q)), pmul_padd_l. unfold padd.
  rewrite pmul_pmono_l. reflexivity.
Qed.

Lemma mul_rows_coef rhs lhs : forall idx terms r, (length terms + 1 = idx + length rhs + length lhs)%nat ->
  mul_rows O idx rhs lhs terms = Ok r ->
  length r = length terms /\ peq (dc r) (padd (dc terms) (pmul (dc rhs) (dc lhs))).
Proof.
  induction rhs as [|c rhs IH]; intros idx terms r Hl H; simpl in H.
  - inv_ok. split; [reflexivity|]. intros d. unfold padd.
    rewrite pmul_zero_l; [unfold pzero; ring|]. intros i. apply dcoef_nil.
  - destruct (is_zero O c) eqn:Ec.
    + simpl in Hl. apply IH in H; [|lia]. destruct H as [H1 H2]. split; [exact H1|]. intros d. rewrite H2.
      unfold padd. rewrite pmul_dcons. rewrite (is_zero_den O R den L _ Ec).
      destruct (Nat.ltb d (length rhs)); ring.
    + inv_ok. apply slice_from_ok in E. destruct E as [Hi ->]. simpl in Hl.
      pose proof (mul_row_coef c lhs (skipn idx terms) _ (length rhs)
        ltac:(rewrite skipn_length; lia) E0) as [Hv Hc].
      rewrite skipn_length in Hv.
      apply IH in H; [|rewrite app_length, firstn_length, Hv; lia].
      destruct H as [H1 H2]. rewrite app_length, firstn_length, Hv in H1. split; [lia|].
      intros d. rewrite H2. unfold padd. rewrite pmul_dcons.
      rewrite dcoef_app, Hv.
      assert (Ht : dc terms d = if Nat.ltb d (length terms - idx) then dc (skipn idx terms) d
          else dc (firstn idx terms) (d - (length terms - idx))%nat).
      { rewrite <- (firstn_skipn idx terms) at 1. rewrite dcoef_app, skipn_length. reflexivity. }
      rewrite Ht. destruct (Nat.ltb_spec d (length terms - idx)).
      * rewrite Hc. ring.
      * destruct (Nat.ltb_spec d (length rhs)); [ring|].
        rewrite (dcoef_overflow R den lhs (d - length rhs)) by lia. ring.
Qed.

Lemma len_strip l : (len (strip O l) <= len l)%N.
Proof. unfold len, strip. rewrite skipn_length. lia. Qed.

Lemma strip_nil l : strip O l = [] <-> peq (dc l) pzero.
Proof.
  split.
  - intros H. eapply peq_trans; [apply peq_sym, (strip_coef O R den L)|]. rewrite H. intros d. apply dcoef_nil.
  - intros H. destruct (strip_split O l) as (pre & E & _ & _ & Hs).
    destruct (strip O l) as [|c r] eqn:El; [reflexivity|].
    pose proof (strip_coef O R den L l (length r)) as Hc. rewrite El, dcoef_cons, Nat.eqb_refl in Hc.
    rewrite H in Hc. apply (is_zero_false_den O R den L) in Hs. contradiction.
Qed.

(** Both operands zero: the length computation [0 + 0 - 1] underflows. *)
Lemma slice_mul_zero a b : strip O a = [] -> strip O b = [] ->
  exists k, slice_mul O a b = Panic k.
Proof.
  intros Ha Hb. unfold slice_mul. rewrite !slice_from_strip, Ha, Hb. cbn [bind].
  change (len (@nil T)) with 0%N. rewrite uadd_small by (vm_compute; discriminate). cbn [bind].
  change (usub (n_chk O) (0 + 0) 1) with
    (if n_chk O then @Panic N POverflow else Ok USIZE_MAX).
  destruct (n_chk O); cbn [bind]; [eauto|].
  unfold vec_repeat. pose proof (lw_cap _ _ _ L) as Hcap.
  destruct (N.leb_spec USIZE_MAX (n_max_len O)) as [H|H]; [unfold USIZE_MAX in H; lia|].
  cbn [bind]. eauto.
Qed.

Lemma slice_mul_unfold a b : vec_ok O a -> vec_ok O b ->
  (strip O a <> [] \/ strip O b <> []) ->
  slice_mul O a b =
    (terms <- vec_repeat (n_max_len O) (zero O) (len (strip O a) + len (strip O b) - 1) ;;
     mul_rows O 0 (strip O b) (strip O a) terms).
Proof.
  unfold vec_ok. intros Ha Hb Hn. unfold slice_mul. rewrite !slice_from_strip. cbn [bind].
  pose proof (lw_cap _ _ _ L) as Hcap. pose proof (len_strip a). pose proof (len_strip b).
  rewrite uadd_small by (unfold USIZE_MAX; lia). cbn [bind].
  rewrite usub_le.
  - cbn [bind]. f_equal. f_equal. lia.
  - unfold len in *. destruct (strip O a), (strip O b); simpl; try lia. destruct Hn; congruence.
Qed.

(** [slice_mul]: the length and coefficients of the result. *)
Lemma slice_mul_coef a b r : vec_ok O a -> vec_ok O b -> slice_mul O a b = Ok r ->
  (length r + 1 = length (strip O a) + length (strip O b))%nat /\ peq (dc r) (pmul (dc a) (dc b)).
Proof.
  intros Ha Hb H.
  assert (Hn : strip O a <> [] \/ strip O b <> []).
  { destruct (strip O a) eqn:Ea; [|left; discriminate]. destruct (strip O b) eqn:Eb; [|right; discriminate].
    destruct (slice_mul_zero a b Ea Eb). congruence. }
  rewrite slice_mul_unfold in H by assumption. inv_ok.
  unfold vec_repeat in E. destruct (N.leb_spec (len (strip O a) + len (strip O b) - 1) (n_max_len O)); [|discriminate].
  inv_ok.
  assert (Hl : (length (repeat (zero O) (N.to_nat (len (strip O a) + len (strip O b) - 1))) + 1
     = 0 + length (strip O b) + length (strip O a))%nat).
  { rewrite repeat_length. unfold len. destruct (strip O a), (strip O b); simpl length; try lia. destruct Hn; congruence. }
  apply (mul_rows_coef _ _ _ _ _ Hl) in H. destruct H as [H1 H2]. split; [lia|].
  intros d. rewrite H2. unfold padd. rewrite (dcoef_all_zero O R den L) by apply (all_zero_repeat O R den L).
  unfold pzero. rewrite radd_0_l. rewrite pmul_comm.
  apply pmul_ext; apply strip_coef; exact L.
Qed.

Lemma dense_mul_coef a b r : vec_ok O a -> vec_ok O b -> dense_mul O a b = Ok r -> peq (dc r) (pmul (dc a) (dc b)).
Proof. intros Ha Hb H. apply slice_mul_coef in H; tauto. Qed.

Lemma dense_mul_ref_strip a b : dense_mul_ref O a b = (r <- dense_mul O a b ;; Ok (strip O r)).
Proof.
  unfold dense_mul_ref, dense_mul. destruct slice_mul; cbn [bind]; try reflexivity. apply dense_new_ok.
Qed.

Lemma dense_mul_ref_coef a b r : vec_ok O a -> vec_ok O b -> dense_mul_ref O a b = Ok r -> peq (dc r) (pmul (dc a) (dc b)).
Proof.
  intros Ha Hb H. rewrite dense_mul_ref_strip in H. inv_ok.
  eapply peq_trans; [apply (strip_coef O R den L)|]. eapply dense_mul_coef; eassumption.
Qed.

Lemma mul_row_total (HT : total_ops O) rt lhs tail : exists r, mul_row O rt lhs tail = Ok r.
Proof.
  unfold mul_row. revert lhs. induction tail as [|t tail IH]; intros [|l lhs]; simpl; eauto.
  destruct (to_mul _ HT rt l) as (p & ->). cbn [bind]. destruct (to_add _ HT t p) as (s & ->). cbn [bind].
  destruct (IH lhs) as (r & ->). simpl. eauto.
Qed.

Lemma mul_rows_total (HT : total_ops O) rhs lhs : forall idx terms,
  (length terms + 1 = idx + length rhs + length lhs)%nat ->
  exists r, mul_rows O idx rhs lhs terms = Ok r.
Proof.
  induction rhs as [|c rhs IH]; intros idx terms Hl; simpl; [eauto|]. simpl in Hl.
  destruct (is_zero O c); [apply IH; lia|].
  unfold slice_from. destruct (Nat.leb_spec idx (length terms)); [|lia]. cbn [bind].
  destruct (mul_row_total HT c lhs (skipn idx terms)) as (r & Hr). rewrite Hr. cbn [bind].
  apply IH. rewrite app_length, firstn_length. apply zipM_length in Hr. rewrite Hr, skipn_length. lia.
Qed.

(** Multiplication returns whenever the coefficient operations do, the result fits in a
    [Vec], and not both operands are zero. *)
Lemma dense_mul_total (HT : total_ops O) a b :
  vec_ok O a -> vec_ok O b ->
  (len (strip O a) + len (strip O b) - 1 <= n_max_len O)%N ->
  (strip O a <> [] \/ strip O b <> []) -> exists r, dense_mul O a b = Ok r.
Proof.
  intros Ha Hb Hc Hn. unfold dense_mul. rewrite slice_mul_unfold by assumption.
  unfold vec_repeat. destruct (N.leb_spec (len (strip O a) + len (strip O b) - 1) (n_max_len O)); [|lia].
  cbn [bind]. apply mul_rows_total; [exact HT|]. rewrite repeat_length. unfold len.
  destruct (strip O a), (strip O b); simpl length; try lia. destruct Hn; congruence.
Qed.

(** ** pow *)

Lemma strip_vec_ok l : vec_ok O l -> vec_ok O (strip O l).
Proof. unfold vec_ok. pose proof (len_strip l). lia. Qed.

Lemma slice_mul_vec_ok a b r : vec_ok O a -> vec_ok O b -> slice_mul O a b = Ok r -> vec_ok O r.
Proof.
  intros Ha Hb H. pose proof (slice_mul_coef a b r Ha Hb H) as [Hl _].
  assert (Hn : strip O a <> [] \/ strip O b <> []).
  { destruct (strip O a) eqn:Ea; [|left; discriminate]. destruct (strip O b) eqn:Eb; [|right; discriminate].
    destruct (slice_mul_zero a b Ea Eb). congruence. }
  rewrite slice_mul_unfold in H by assumption. inv_ok. unfold vec_repeat in E.
  destruct (N.leb_spec (len (strip O a) + len (strip O b) - 1) (n_max_len O)); [|discriminate].
  unfold vec_ok, len in *. lia.
Qed.

Lemma dense_mul_ref_vec_ok a b r : vec_ok O a -> vec_ok O b -> dense_mul_ref O a b = Ok r -> vec_ok O r.
Proof.
  intros Ha Hb H. rewrite dense_mul_ref_strip in H. inv_ok. apply strip_vec_ok.
  exact (slice_mul_vec_ok _ _ _ Ha Hb E).
Qed.

Lemma dense_pow_coef_gen fuel : forall p e r, vec_ok O p -> (1 <= n_max_len O)%N ->
  dense_pow O fuel p e = Ok r ->
  vec_ok O r /\ peq (dc r) (ppow (dc p) (N.to_nat e)).
Proof.
  induction fuel as [|fuel IH]; intros p e r Hp H1 H; [discriminate|]. cbn [dense_pow] in H.
  destruct (N.eqb_spec e 0) as [->|E0].
  { inv_ok. split; [exact H1|]. intros d. change (N.to_nat 0) with 0%nat. cbn [ppow].
    rewrite dcoef_cons. simpl length. destruct d; simpl; [apply (lw_one _ _ _ L)|apply dcoef_nil]. }
  destruct (N.eqb_spec e 1) as [->|E1].
  { rewrite dense_new_ok in H. inv_ok. split; [apply strip_vec_ok, Hp|]. change (N.to_nat 1) with 1%nat.
    eapply peq_trans; [apply (strip_coef O R den L)|]. apply peq_sym, ppow_1. }
  destruct (N.eqb_spec e 2) as [->|E2].
  { split; [eapply dense_mul_ref_vec_ok; [| |exact H]; assumption|].
    change (N.to_nat 2) with 2%nat. cbn [ppow].
    eapply peq_trans; [eapply dense_mul_ref_coef; [| |exact H]; assumption|].
    apply pmul_ext; [apply peq_refl|]. apply peq_sym, pmul_pone_r. }
  destruct (N.eqb_spec (e mod 2) 0) as [Em|Em].
  - inv_ok. apply IH in E; [|assumption..]. destruct E as [Hv Hc].
    apply IH in H; [|assumption..]. destruct H as [Hv' Hc']. split; [exact Hv'|].
    eapply peq_trans; [exact Hc'|]. change (N.to_nat 2) with 2%nat.
    eapply peq_trans; [apply ppow_ext, Hc|].
    assert (He : N.to_nat e = (N.to_nat (e / 2) + N.to_nat (e / 2))%nat).
    { pose proof (N.div_mod e 2 ltac:(lia)). lia. }
    rewrite He. cbn [ppow]. eapply peq_trans; [|apply peq_sym, ppow_add].
    apply pmul_ext; [apply peq_refl|]. apply pmul_pone_r.
  - inv_ok. apply IH in E; [|assumption..]. destruct E as [Hv Hc].
    split; [eapply dense_mul_ref_vec_ok; [| |exact H]; assumption|].
    eapply peq_trans; [eapply dense_mul_ref_coef; [| |exact H]; assumption|].
    assert (He : N.to_nat e = S (N.to_nat (e - 1))) by lia. rewrite He. cbn [ppow].
    apply pmul_ext; [apply peq_refl|exact Hc].
Qed.

(** Recursion depth needed by [pow]. *)
Definition pow_fuel (e : N) : nat := S (2 * N.to_nat (N.size e)).

Lemma size_div2 e : (2 <= e)%N -> N.size e = N.succ (N.size (e / 2)).
Proof.
  intros H. rewrite !N.size_log2 by (try apply N.neq_0_lt_0; try (intros E; apply N.div_small_iff in E; lia); lia).
  f_equal. rewrite <- N.div2_div. destruct e as [|[p|p|]]; try lia; simpl; destruct p; reflexivity.
Qed.

(** [pow] never runs out of that depth: it returns or panics. *)
Lemma mul_rows_prompt (HP : prompt O) rhs lhs : forall idx terms, mul_rows O idx rhs lhs terms <> Fuel.
Proof.
  assert (NM : forall f, (forall x y : T, f x y <> Fuel) -> forall l m : list T, zipM f l m <> Fuel).
  { intros f Hf l. induction l as [|x l IHl]; intros [|y m]; simpl; try discriminate.
    apply bind_prompt; [apply Hf|intros]. apply bind_prompt; [apply IHl|discriminate]. }
  induction rhs as [|c rhs IH]; intros idx terms; simpl; [discriminate|].
  destruct (is_zero O c); [apply IH|].
  apply bind_prompt; [unfold slice_from; destruct (_ <=? _)%nat; discriminate|intros].
  apply bind_prompt; [|intros; apply IH]. apply NM. intros x y.
  apply bind_prompt; [apply (pr_mul _ HP)|intros; apply (pr_add _ HP)].
Qed.

Lemma slice_mul_prompt (HP : prompt O) a b : slice_mul O a b <> Fuel.
Proof.
  unfold slice_mul. rewrite !slice_from_strip. cbn [bind].
  apply bind_prompt; [unfold uadd; destruct (_ <=? _)%N; [|destruct (n_chk O)]; discriminate|intros].
  apply bind_prompt; [unfold usub; destruct (_ <=? _)%N; [|destruct (n_chk O)]; discriminate|intros].
  apply bind_prompt; [unfold vec_repeat; destruct (_ <=? _)%N; discriminate|intros].
  apply mul_rows_prompt, HP.
Qed.

Lemma dense_mul_ref_prompt (HP : prompt O) a b : dense_mul_ref O a b <> Fuel.
Proof.
  rewrite dense_mul_ref_strip. apply bind_prompt; [apply slice_mul_prompt, HP|discriminate].
Qed.

Lemma dense_pow_prompt (HP : prompt O) : forall fuel p e, (pow_fuel e <= fuel)%nat -> dense_pow O fuel p e <> Fuel.
Proof.
  intros fuel. induction fuel as [fuel IH] using lt_wf_ind. intros p e H.
  unfold pow_fuel in H. destruct fuel as [|fuel]; [lia|]. cbn [dense_pow].
  destruct (N.eqb_spec e 0) as [->|E0]; [discriminate|].
  destruct (N.eqb_spec e 1) as [->|E1]; [rewrite dense_new_ok; discriminate|].
  destruct (N.eqb_spec e 2) as [->|E2]; [apply dense_mul_ref_prompt, HP|].
  pose proof (size_div2 e ltac:(lia)) as Hs.
  destruct (N.eqb_spec (e mod 2) 0) as [Em|Em].
  - apply bind_prompt.
    + apply IH; [lia|]. unfold pow_fuel. lia.
    + intros h _. destruct fuel as [|fuel]; [lia|]. cbn [dense_pow]. simpl N.eqb. cbv iota.
      apply dense_mul_ref_prompt, HP.
  - apply bind_prompt; [|intros; apply dense_mul_ref_prompt, HP].
    destruct fuel as [|fuel]; [lia|]. cbn [dense_pow].
    destruct (N.eqb_spec (e - 1) 0) as [E3|E3]; [discriminate|].
    destruct (N.eqb_spec (e - 1) 1) as [E4|E4]; [rewrite dense_new_ok; discriminate|].
    destruct (N.eqb_spec (e - 1) 2) as [E5|E5]; [apply dense_mul_ref_prompt, HP|].
    assert (Hm : ((e - 1) mod 2 = 0)%N).
    { pose proof (N.div_mod e 2 ltac:(lia)). pose proof (N.mod_lt e 2 ltac:(lia)).
      replace (e - 1)%N with (e / 2 * 2)%N by lia. apply N.mod_mul. lia. }
    rewrite Hm. change (0 =? 0)%N with true. cbv iota.
    assert (Hd : ((e - 1) / 2 = e / 2)%N).
    { pose proof (N.div_mod e 2 ltac:(lia)). pose proof (N.mod_lt e 2 ltac:(lia)).
      replace (e - 1)%N with (e / 2 * 2)%N by lia. apply N.div_mul. lia. }
    apply bind_prompt.
    + rewrite Hd. apply IH; [lia|]. unfold pow_fuel. lia.
    + intros h _. destruct fuel as [|fuel]; [lia|]. cbn [dense_pow]. simpl N.eqb. cbv iota.
      apply dense_mul_ref_prompt, HP.
Qed.

(** The zero polynomial squared panics, hence every power from the second on. *)
Lemma dense_pow_zero (HP : prompt O) : forall fuel p e, strip O p = [] -> (2 <= e)%N -> (pow_fuel e <= fuel)%nat ->
  exists k, dense_pow O fuel p e = Panic k.
Proof.
  intros fuel. induction fuel as [fuel IH] using lt_wf_ind. intros p e Hp He H.
  unfold pow_fuel in H. destruct fuel as [|fuel]; [lia|]. cbn [dense_pow].
  destruct (N.eqb_spec e 0) as [->|E0]; [lia|].
  destruct (N.eqb_spec e 1) as [->|E1]; [lia|].
  assert (Hsq : exists k, dense_mul_ref O p p = Panic k).
  { unfold dense_mul_ref. destruct (slice_mul_zero p p Hp Hp) as (k & ->). simpl. eauto. }
  destruct (N.eqb_spec e 2) as [->|E2]; [exact Hsq|].
  pose proof (size_div2 e ltac:(lia)) as Hs.
  assert (He4 : (e mod 2 = 0 -> 2 <= e / 2)%N).
  { intros Em. pose proof (N.div_mod e 2 ltac:(lia)). lia. }
  destruct (N.eqb_spec (e mod 2) 0) as [Em|Em].
  - destruct (IH fuel ltac:(lia) p (e / 2)%N Hp (He4 Em) ltac:(unfold pow_fuel; lia)) as (k & ->). simpl. eauto.
  - assert (exists k, dense_pow O fuel p (e - 1) = Panic k) as (k & ->); [|simpl; eauto].
    destruct fuel as [|fuel]; [lia|]. cbn [dense_pow].
    destruct (N.eqb_spec (e - 1) 0) as [E3|E3]; [lia|].
    destruct (N.eqb_spec (e - 1) 1) as [E4|E4]; [exfalso; apply E2; lia|].
    destruct (N.eqb_spec (e - 1) 2) as [E5|E5]; [exact Hsq|].
    pose proof (N.div_mod e 2 ltac:(lia)). pose proof (N.mod_lt e 2 ltac:(lia)).
    assert (Hm : ((e - 1) mod 2 = 0)%N).
    { replace (e - 1)%N with (e / 2 * 2)%N by lia. apply N.mod_mul. lia. }
    rewrite Hm. change (0 =? 0)%N with true. cbv iota.
    assert (Hd : ((e - 1) / 2 = e / 2)%N).
    { replace (e - 1)%N with (e / 2 * 2)%N by lia. apply N.div_mul. lia. }
    rewrite Hd.
    destruct (IH fuel ltac:(lia) p (e / 2)%N Hp ltac:(lia) ltac:(unfold pow_fuel; lia)) as (k & ->). simpl. eauto.
Qed.

(** Over an integral domain with total coefficient operations, every power of a non-zero
    polynomial whose length fits in a [Vec] is returned. *)
Definition domain : Prop := forall x y : car R, rmul x y = r0 -> x = r0 \/ y = r0.

Lemma slice_mul_lead (HD : domain) a b r : vec_ok O a -> vec_ok O b -> slice_mul O a b = Ok r ->
  strip O a <> [] -> strip O b <> [] ->
  strip O r = r.
Proof.
  intros Ha Hb H Na Nb. pose proof (slice_mul_coef a b r Ha Hb H) as [Hl Hc].
  assert (Hd : forall l, strip O l <> [] ->
     dc l (length (strip O l) - 1)%nat <> r0 /\ forall d, (length (strip O l) <= d)%nat -> dc l d = r0).
  { intros l Hn. split.
    - rewrite <- (strip_coef O R den L l). destruct (strip_split O l) as (_ & _ & _ & _ & Hs).
      destruct (strip O l) as [|c q]; [congruence|]. simpl length. rewrite Nat.sub_succ, Nat.sub_0_r.
      rewrite dcoef_cons, Nat.eqb_refl. apply (is_zero_false_den O R den L), Hs.
    - intros d Hle. rewrite <- (strip_coef O R den L l). apply dcoef_overflow. lia. }
  destruct (Hd a Na) as [Ha1 Ha2], (Hd b Nb) as [Hb1 Hb2].
  destruct r as [|c r]; [reflexivity|].
  assert (is_zero O c = false) as Ez.
  { destruct (is_zero O c) eqn:Ez; [|reflexivity]. exfalso.
    apply (is_zero_den O R den L) in Ez.
    specialize (Hc (length r)). rewrite dcoef_cons, Nat.eqb_refl, Ez in Hc.
    simpl length in Hl.
    assert (length (strip O a) <> 0)%nat by (destruct (strip O a); simpl; congruence).
    assert (length (strip O b) <> 0)%nat by (destruct (strip O b); simpl; congruence).
    unfold pmul in Hc. rewrite (sumn_single _ _ (length (strip O a) - 1)) in Hc; [|lia|].
    - symmetry in Hc. apply HD in Hc. destruct Hc as [Hc|Hc]; [contradiction|].
      apply Hb1. rewrite <- Hc. f_equal. lia.
    - intros i Hi Hne. destruct (Nat.ltb_spec i (length (strip O a))).
      + rewrite Hb2 by lia. ring.
      + rewrite Ha2 by lia. ring. }
  unfold strip. simpl. rewrite Ez. reflexivity.
Qed.

Lemma dense_pow_total (HD : domain) (HT : total_ops O) : r1 <> @r0 R -> forall fuel p e,
  (pow_fuel e <= fuel)%nat -> vec_ok O p -> strip O p <> [] ->
  ((len (strip O p) - 1) * e + 1 <= n_max_len O)%N ->
  exists r, dense_pow O fuel p e = Ok r /\ strip O r = r /\ r <> [] /\ (len r = (len (strip O p) - 1) * e + 1)%N.
Proof.
  intros H10 fuel. induction fuel as [fuel IH] using lt_wf_ind. intros p e H Hv Hn Hcap.
  assert (SS : forall l : list T, strip O (strip O l) = strip O l).
  { intros l. destruct (strip_split O l) as (_ & _ & _ & _ & Hs). destruct (strip O l) as [|c q]; [reflexivity|].
    unfold strip. simpl. rewrite Hs. reflexivity. }
  assert (MM : forall a b, vec_ok O a -> vec_ok O b -> strip O a <> [] -> strip O b <> [] ->
     (len (strip O a) + len (strip O b) - 1 <= n_max_len O)%N ->
     exists r, dense_mul_ref O a b = Ok r /\ strip O r = r /\ r <> [] /\
       (len r = len (strip O a) + len (strip O b) - 1)%N).
  { intros a b Ha Hb Na Nb Hc. destruct (dense_mul_total HT a b Ha Hb Hc (or_introl Na)) as (r & Hr).
    exists r. rewrite dense_mul_ref_strip, Hr. cbn [bind].
    pose proof (slice_mul_lead HD a b r Ha Hb Hr Na Nb) as Hs.
    pose proof (slice_mul_coef a b r Ha Hb Hr) as [Hl _].
    rewrite Hs. split; [reflexivity|]. split; [reflexivity|].
    assert (length (strip O a) <> 0)%nat by (destruct (strip O a); simpl; congruence).
    assert (length (strip O b) <> 0)%nat by (destruct (strip O b); simpl; congruence).
    split; [intros ->; simpl in Hl; lia|]. unfold len. lia. }
  assert (Hlp : (1 <= len (strip O p))%N) by (unfold len; destruct (strip O p); simpl length; [congruence|lia]).
  unfold pow_fuel in H. destruct fuel as [|fuel]; [lia|]. cbn [dense_pow].
  destruct (N.eqb_spec e 0) as [->|E0].
  { exists [one O]. split; [reflexivity|]. split; [|split; [discriminate|unfold len; simpl length; lia]].
    unfold strip. simpl. destruct (is_zero O (one O)) eqn:E; [|reflexivity].
    apply (is_zero_den O R den L) in E. rewrite (lw_one _ _ _ L) in E. contradiction. }
  destruct (N.eqb_spec e 1) as [->|E1].
  { exists (strip O p). rewrite dense_new_ok. split; [reflexivity|]. split; [apply SS|]. split; [exact Hn|]. lia. }
  destruct (N.eqb_spec e 2) as [->|E2].
  { destruct (MM p p) as (r & H1 & H2 & H3 & H4); auto; [nia|].
    exists r. split; [exact H1|]. split; [exact H2|]. split; [exact H3|]. nia. }
  pose proof (size_div2 e ltac:(lia)) as Hs.
  pose proof (N.div_mod e 2 ltac:(lia)) as Hdm. pose proof (N.mod_lt e 2 ltac:(lia)) as Hml.
  destruct (N.eqb_spec (e mod 2) 0) as [Em|Em].
  - destruct (IH fuel ltac:(lia) p (e / 2)%N) as (h & Hh & Sh & Nh & Lh); auto;
      [unfold pow_fuel; lia|nia|].
    rewrite Hh. cbn [bind]. destruct fuel as [|fuel]; [lia|]. cbn [dense_pow]. simpl N.eqb. cbv iota.
    destruct (MM h h) as (r & H1 & H2 & H3 & H4); rewrite ?Sh; auto; try (unfold vec_ok; nia).
    exists r. split; [exact H1|]. split; [exact H2|]. split; [exact H3|]. rewrite Sh in H4. nia.
  - assert (exists h, dense_pow O fuel p (e - 1) = Ok h /\ strip O h = h /\ h <> [] /\
       (len h = (len (strip O p) - 1) * (e - 1) + 1)%N) as (h & Hh & Sh & Nh & Lh).
    { destruct fuel as [|fuel]; [lia|]. cbn [dense_pow].
      destruct (N.eqb_spec (e - 1) 0) as [E3|E3]; [lia|].
      destruct (N.eqb_spec (e - 1) 1) as [E4|E4]; [exfalso; apply E2; lia|].
      destruct (N.eqb_spec (e - 1) 2) as [E5|E5].
      { destruct (MM p p) as (r & H1 & H2 & H3 & H4); auto; [nia|].
        exists r. split; [exact H1|]. split; [exact H2|]. split; [exact H3|]. nia. }
      assert (Hm : ((e - 1) mod 2 = 0)%N).
      { replace (e - 1)%N with (e / 2 * 2)%N by lia. apply N.mod_mul. lia. }
      rewrite Hm. change (0 =? 0)%N with true. cbv iota.
      assert (Hd : ((e - 1) / 2 = e / 2)%N).
      { replace (e - 1)%N with (e / 2 * 2)%N by lia. apply N.div_mul. lia. }
      rewrite Hd.
      destruct (IH fuel ltac:(lia) p (e / 2)%N) as (h & Hh & Sh & Nh & Lh); auto;
        [unfold pow_fuel; lia|nia|].
      rewrite Hh. cbn [bind]. destruct fuel as [|fuel]; [lia|]. cbn [dense_pow]. simpl N.eqb. cbv iota.
      destruct (MM h h) as (r & H1 & H2 & H3 & H4); rewrite ?Sh; auto; try (unfold vec_ok; nia).
      exists r. split; [exact H1|]. split; [exact H2|]. split; [exact H3|]. rewrite Sh in H4. nia. }
    rewrite Hh. cbn [bind].
    destruct (MM p h) as (r & H1 & H2 & H3 & H4); rewrite ?Sh; auto; try (unfold vec_ok; nia).
    exists r. split; [exact H1|]. split; [exact H2|]. split; [exact H3|]. rewrite Sh in H4. nia.
Qed.

End DenseMul.
