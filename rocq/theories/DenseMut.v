(** Adding and subtracting terms in place, and building a dense polynomial from terms. *)

From Coq Require Import List NArith ZArith Lia Bool Ring Arith.
From Coq Require Import ZifyBool ZifyNat ZifyN.
From Verif Require Import Base Num Spec SpecFacts Laws Terms Dense DenseFacts.
Import ListNotations.

Section DenseMut.
Context {T : Type} (O : num T) (R : comring) (den : T -> car R) (L : lawful O R den).
Add Ring Rring_dmu : (r_theory R).
Notation dc := (dcoef R den).

Lemma update_coef_f l i f r : update l i f = Ok r ->
  (i < len l)%N /\ length r = length l /\
  exists x y, f x = Ok y /\ den x = dc l (length l - 1 - N.to_nat i) /\
    forall d, dc r d = if Nat.eqb d (length l - 1 - N.to_nat i) then den y else dc l d.
Proof.
  unfold update. destruct (N.ltb_spec i (len l)) as [Hi|]; [|discriminate]. intros H. split; [exact Hi|].
  apply update_nat_spec in H. destruct H as (pre & x & post & y & -> & Hp & Hy & ->).
  rewrite !app_length. simpl length. split; [reflexivity|]. exists x, y.
  replace (length pre + S (length post) - 1 - N.to_nat i)%nat with (length post) by lia.
  split; [exact Hy|]. split.
  - rewrite dcoef_app. simpl length. destruct (Nat.ltb_spec (length post) (S (length post))); [|lia].
    rewrite dcoef_cons, Nat.eqb_refl. reflexivity.
  - intros d. rewrite !dcoef_app. simpl length. rewrite !dcoef_cons.
    destruct (Nat.eqb_spec d (length post)); destruct (Nat.ltb_spec d (S (length post))); try lia; reflexivity.
Qed.

Lemma update_f_returns l i f : (i < len l)%N ->
  (exists r, update l i f = Ok r) <->
  (exists x y, f x = Ok y /\ den x = dc l (length l - 1 - N.to_nat i)).
Proof.
  intros Hi. split.
  - intros (r & H). apply update_coef_f in H. destruct H as (_ & _ & x & y & H1 & H2 & _). eauto.
  - intros (x & y & Hf & Hx). unfold update. destruct (N.ltb_spec i (len l)); [|lia].
    destruct (nth_error l (N.to_nat i)) as [x'|] eqn:E.
    + apply nth_error_split in E. destruct E as (pre & post & -> & Hp). rewrite <- Hp.
      assert (x = x') as <-.
      { apply (lw_inj _ _ _ L). rewrite Hx, app_length. simpl length.
        replace (length pre + S (length post) - 1 - N.to_nat i)%nat with (length post) by lia.
        rewrite dcoef_app. simpl length. destruct (Nat.ltb_spec (length post) (S (length post))); [|lia].
        rewrite dcoef_cons, Nat.eqb_refl. reflexivity. }
      rewrite (update_nat_complete _ _ _ _ y) by exact Hf. eauto.
    + apply nth_error_None in E. unfold len in Hi. lia.
Qed.

(** Padding at the front so that degree [d] exists. *)
Definition pad_to (l : list T) (d : N) : list T := repeat (zero O) (N.to_nat (d + 1 - len l)) ++ l.

Lemma pad_to_len l d : length (pad_to l d) = Nat.max (length l) (S (N.to_nat d)).
Proof. unfold pad_to, len. rewrite app_length, repeat_length. lia. Qed.

Lemma pad_to_coef l d : peq (dc (pad_to l d)) (dc l).
Proof. apply (dcoef_zeros O R den L), (all_zero_repeat O R den L). Qed.

(** The common part of [add_term] and [try_sub_term]. *)
Definition upd_term (l : list T) (d : N) (f : T -> res T) : res (list T) :=
  d1 <- uadd (n_chk O) d 1 ;;
  l' <- (if (len l <? d1)%N then
           added <- usub (n_chk O) d1 (len l) ;;
           _ <- vec_grow (n_max_len O) l added ;;
           Ok (repeat (zero O) (N.to_nat added) ++ l)
         else Ok l) ;;
  i1 <- usub (n_chk O) (len l') d ;; i <- usub (n_chk O) i1 1 ;;
  update l' i f.

(** [usize::MAX] is never a usable degree. *)
Lemma upd_term_max l f : vec_ok O l -> exists k, upd_term l USIZE_MAX f = Panic k.
Proof.
  intros Hv. unfold upd_term. change (uadd (n_chk O) USIZE_MAX 1) with (if n_chk O then @Panic N POverflow else Ok 0%N).
  destruct (n_chk O) eqn:Ec; [simpl; eauto|]. cbn [bind].
  destruct (N.ltb_spec (len l) 0); [lia|]. cbn [bind].
  unfold vec_ok in Hv. pose proof (lw_cap _ _ _ L) as Hcap.
  assert (Hu : usub false (len l) USIZE_MAX = Ok (len l + 1)%N).
  { unfold usub, USIZE_MAX, USIZE_MOD. destruct (N.leb_spec (2 ^ 64 - 1) (len l)); [lia|]. f_equal.
    rewrite (N.mod_small (2 ^ 64 - 1)) by lia. rewrite N.mod_small by lia. lia. }
  rewrite Hu. cbn [bind]. rewrite usub_le by lia. cbn [bind].
  unfold update. destruct (N.ltb_spec (len l + 1 - 1) (len l)); [lia|]. eauto.
Qed.

Lemma upd_term_unfold l d f : vec_ok O l -> (d < USIZE_MAX)%N ->
  upd_term l d f =
    if (N.max (len l) (d + 1) <=? n_max_len O)%N
    then update (pad_to l d) (N.max (len l) (d + 1) - d - 1) f
    else Panic PCapacity.
Proof.
  intros Hv Hd. unfold upd_term. rewrite uadd_small by lia. cbn [bind]. unfold vec_ok in Hv.
  destruct (N.ltb_spec (len l) (d + 1)) as [Hl|Hl].
  - rewrite usub_le by lia. cbn [bind]. unfold vec_grow.
    replace (len l + (d + 1 - len l))%N with (N.max (len l) (d + 1)) by lia.
    destruct (N.leb_spec (N.max (len l) (d + 1)) (n_max_len O)); cbn [bind]; [|reflexivity].
    change (repeat (zero O) (N.to_nat (d + 1 - len l)) ++ l) with (pad_to l d).
    assert (Hp : len (pad_to l d) = N.max (len l) (d + 1)) by (unfold len; rewrite pad_to_len; lia).
    rewrite Hp. rewrite usub_le by lia. cbn [bind]. rewrite usub_le by lia. reflexivity.
  - cbn [bind]. destruct (N.leb_spec (N.max (len l) (d + 1)) (n_max_len O)); [|lia].
    rewrite usub_le by lia. cbn [bind]. rewrite usub_le by lia. cbn [bind].
    unfold pad_to. replace (d + 1 - len l)%N with 0%N by lia. simpl app. f_equal. lia.
Qed.

Lemma upd_term_spec l d f r : vec_ok O l -> (d <= USIZE_MAX)%N -> upd_term l d f = Ok r ->
  vec_ok O r /\ length r = Nat.max (length l) (S (N.to_nat d)) /\
  exists x y, f x = Ok y /\ den x = dc l (N.to_nat d) /\
    forall e, dc r e = if Nat.eqb e (N.to_nat d) then den y else dc l e.
Proof.
  intros Hv Hd H. destruct (N.eq_dec d USIZE_MAX) as [->|Hne].
  { destruct (upd_term_max l f Hv). congruence. }
  rewrite upd_term_unfold in H by (try assumption; lia).
  destruct (N.leb_spec (N.max (len l) (d + 1)) (n_max_len O)) as [Hc|]; [|discriminate].
  apply update_coef_f in H. destruct H as (_ & Hl & x & y & Hf & Hx & Hr). rewrite pad_to_len in *.
  unfold len in *.
  replace (Nat.max (length l) (S (N.to_nat d)) - 1 - N.to_nat (N.max (N.of_nat (length l)) (d + 1) - d - 1))%nat
    with (N.to_nat d) in * by lia.
  split; [unfold vec_ok, len; lia|]. split; [exact Hl|]. exists x, y. split; [exact Hf|].
  rewrite (pad_to_coef l d) in Hx. split; [exact Hx|]. intros e. rewrite Hr, (pad_to_coef l d). reflexivity.
Qed.

Lemma upd_term_returns l d f : vec_ok O l -> (d < USIZE_MAX)%N ->
  (exists r, upd_term l d f = Ok r) <->
  ((d + 1 <= n_max_len O)%N /\ exists x y, f x = Ok y /\ den x = dc l (N.to_nat d)).
Proof.
  intros Hv Hd. rewrite upd_term_unfold by assumption. unfold vec_ok in Hv.
  destruct (N.leb_spec (N.max (len l) (d + 1)) (n_max_len O)) as [Hc|Hc].
  - rewrite update_f_returns by (unfold len; rewrite pad_to_len; unfold len; lia).
    rewrite pad_to_len. unfold len in *.
    replace (Nat.max (length l) (S (N.to_nat d)) - 1 - N.to_nat (N.max (N.of_nat (length l)) (d + 1) - d - 1))%nat
      with (N.to_nat d) by lia.
    rewrite (pad_to_coef l d). split; [intros H; split; [lia|exact H]|tauto].
  - split; [intros (? & ?); discriminate|]. intros [H _]. lia.
Qed.

Lemma dense_add_term_upd l c d : dense_add_term O l c d = upd_term l d (fun x => add O x c).
Proof. reflexivity. Qed.

(** ** add_term *)

Lemma dense_add_term_spec l c d r : vec_ok O l -> (d <= USIZE_MAX)%N -> dense_add_term O l c d = Ok r ->
  vec_ok O r /\ length r = Nat.max (length l) (S (N.to_nat d)) /\
  peq (dc r) (padd (dc l) (pmono (den c) (N.to_nat d))).
Proof.
  intros Hv Hd H. rewrite dense_add_term_upd in H. apply upd_term_spec in H; [|assumption..].
  destruct H as (H1 & H2 & x & y & Hf & Hx & Hr). split; [exact H1|]. split; [exact H2|].
  intros e. rewrite Hr. unfold padd, pmono. destruct (Nat.eqb_spec e (N.to_nat d)) as [->|]; [|ring].
  rewrite (lw_add _ _ _ L _ _ _ Hf), Hx. reflexivity.
Qed.

Lemma dense_add_term_total (HT : total_ops O) l c d : vec_ok O l -> (d + 1 <= n_max_len O)%N ->
  exists r, dense_add_term O l c d = Ok r.
Proof.
  intros Hv Hd. pose proof (lw_cap _ _ _ L). rewrite dense_add_term_upd. apply upd_term_returns; auto.
  - unfold USIZE_MAX. lia.
  - split; [exact Hd|]. destruct (term_with_deg_spec O R den L l d) as (t & _ & Ht).
    assert (exists x, den x = dc l (N.to_nat d)) as (x & Hx).
    { destruct t as [|x k]; [exists (zero O); rewrite (lw_zero _ _ _ L), Ht; reflexivity|].
      exists x. symmetry. apply Ht. }
    destruct (to_add _ HT x c) as (y & Hy). eauto.
Qed.

(** ** try_sub_term *)

Lemma dense_try_sub_term_upd l c d : dense_try_sub_term O l c d =
  (d1 <- uadd (n_chk O) d 1 ;;
   if (len l <? d1)%N && negb (can_negate O) then Ok (l, Some CanNotNegate)
   else l'' <- upd_term l d (fun x => sub O x c) ;; Ok (l'', None)).
Proof.
  unfold dense_try_sub_term, upd_term. destruct (uadd (n_chk O) d 1) as [d1| |]; cbn [bind]; try reflexivity.
  destruct ((len l <? d1)%N && negb (can_negate O)); [reflexivity|].
  destruct (if (len l <? d1)%N then _ else _) as [l'| |]; cbn [bind]; try reflexivity.
  destruct (usub (n_chk O) (len l') d) as [i1| |]; cbn [bind]; try reflexivity.
  destruct (usub (n_chk O) i1 1) as [i| |]; cbn [bind]; reflexivity.
Qed.

Lemma dense_try_sub_term_spec l c d r e : vec_ok O l -> (d < USIZE_MAX)%N ->
  dense_try_sub_term O l c d = Ok (r, e) ->
  (e = None /\ vec_ok O r /\ peq (dc r) (psub (dc l) (pmono (den c) (N.to_nat d))) /\
     (can_negate O = true \/ (d < len l)%N)) \/
  (e = Some CanNotNegate /\ r = l /\ can_negate O = false /\ (len l <= d)%N).
Proof.
  intros Hv Hd H. rewrite dense_try_sub_term_upd in H. rewrite uadd_small in H by lia. cbn [bind] in H.
  destruct ((len l <? d + 1)%N && negb (can_negate O)) eqn:Eb.
  - inv_ok. inversion H; subst. right. apply andb_true_iff in Eb. destruct Eb as [Eb1 Eb2].
    apply negb_true_iff in Eb2. repeat split; auto. lia.
  - left. inv_ok. inversion H; subst. clear H. apply upd_term_spec in E; [|assumption|lia].
    destruct E as (H1 & _ & x & y & Hf & Hx & Hr). split; [reflexivity|]. split; [exact H1|]. split.
    + intros i. rewrite Hr. unfold psub, pmono. destruct (Nat.eqb_spec i (N.to_nat d)) as [->|]; [|ring].
      rewrite (lw_sub _ _ _ L _ _ _ Hf), Hx. reflexivity.
    + destruct (can_negate O); [auto|right]. simpl in Eb. lia.
Qed.

Lemma dense_try_sub_term_total (HT : total_ops O) l c d : vec_ok O l -> (d + 1 <= n_max_len O)%N ->
  exists r e, dense_try_sub_term O l c d = Ok (r, e).
Proof.
  intros Hv Hd. pose proof (lw_cap _ _ _ L). rewrite dense_try_sub_term_upd.
  rewrite uadd_small by (unfold USIZE_MAX; lia). cbn [bind].
  destruct ((len l <? d + 1)%N && negb (can_negate O)); [eauto|].
  destruct (proj2 (upd_term_returns l d (fun x => sub O x c) Hv ltac:(unfold USIZE_MAX; lia))) as (r & ->).
  - split; [exact Hd|]. destruct (term_with_deg_spec O R den L l d) as (t & _ & Ht).
    assert (exists x, den x = dc l (N.to_nat d)) as (x & Hx).
    { destruct t as [|x k]; [exists (zero O); rewrite (lw_zero _ _ _ L), Ht; reflexivity|].
      exists x. symmetry. apply Ht. }
    destruct (to_sub _ HT x c) as (y & Hy). eauto.
  - simpl. eauto.
Qed.

(** ** when they return, in terms of representability *)

Lemma coef_rep l d : exists x, den x = dc l d.
Proof.
  destruct (term_with_deg_spec O R den L l (N.of_nat d)) as (t & _ & Ht). rewrite Nnat.Nat2N.id in Ht.
  destruct t as [|x k]; [exists (zero O); rewrite (lw_zero _ _ _ L), Ht; reflexivity|].
  exists x. symmetry. apply Ht.
Qed.

Lemma dense_add_term_returns fits (F : fits_ops O R den fits) l c d : vec_ok O l -> (d < USIZE_MAX)%N ->
  (exists r, dense_add_term O l c d = Ok r) <->
  ((d + 1 <= n_max_len O)%N /\ fits (radd (dc l (N.to_nat d)) (den c))).
Proof.
  intros Hv Hd. rewrite dense_add_term_upd, upd_term_returns by assumption.
  apply and_iff_compat_l. split.
  - intros (x & y & Hf & <-). apply (fo_add _ _ _ _ F). eauto.
  - intros H. destruct (coef_rep l (N.to_nat d)) as (x & Hx). rewrite <- Hx in H.
    apply (fo_add _ _ _ _ F) in H. destruct H as (y & Hy). eauto.
Qed.

(** ** from_terms *)

Lemma dense_from_terms_gen ts : forall l r, vec_ok O l -> Forall (fun t => (snd t <= USIZE_MAX)%N) ts ->
  foldM (fun l ct => dense_add_term O l (fst ct) (snd ct)) l ts = Ok r ->
  vec_ok O r /\ peq (dc r) (padd (dc l) (terms_coef (dterms R den ts))).
Proof.
  induction ts as [|[c d] ts IH]; intros l r Hv Hb H; simpl in H.
  - inv_ok. split; [exact Hv|]. intros e. unfold padd. simpl. unfold pzero. ring.
  - inversion Hb as [|? ? Hd Hb']; subst. inv_ok.
    apply dense_add_term_spec in E; [|assumption..]. destruct E as (Hv' & _ & Hc).
    apply IH in H; [|assumption..]. destruct H as [H1 H2]. split; [exact H1|].
    intros e. rewrite H2. unfold padd. rewrite Hc. unfold padd. simpl. unfold padd. ring.
Qed.

Lemma dense_from_terms_spec ts r : Forall (fun t => (snd t <= USIZE_MAX)%N) ts ->
  dense_from_terms O ts = Ok r -> vec_ok O r /\ peq (dc r) (terms_coef (dterms R den ts)).
Proof.
  intros Hb H. apply dense_from_terms_gen in H; [|unfold vec_ok, dense_zero, len; simpl; lia|exact Hb].
  destruct H as [H1 H2]. split; [exact H1|]. intros e. rewrite H2. unfold padd, dense_zero. rewrite dcoef_nil. ring.
Qed.

Lemma dense_from_terms_total (HT : total_ops O) ts : Forall (fun t => (snd t + 1 <= n_max_len O)%N) ts ->
  exists r, dense_from_terms O ts = Ok r.
Proof.
  intros Hb. pose proof (lw_cap _ _ _ L) as Hcap. unfold dense_from_terms.
  assert (Hv : vec_ok O (@dense_zero T)) by (unfold vec_ok, dense_zero, len; simpl; lia).
  revert Hv. generalize (@dense_zero T) as l.
  induction Hb as [|[c d] ts Hd _ IH]; intros l Hv; simpl; [eauto|]. simpl in Hd.
  destruct (dense_add_term_total HT l c d Hv Hd) as (r & Hr). rewrite Hr. cbn [bind]. apply IH.
  apply dense_add_term_spec in Hr; [tauto|exact Hv|unfold USIZE_MAX; lia].
Qed.

End DenseMut.
