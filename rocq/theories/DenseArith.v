(** Dense addition, subtraction, negation and scalar operations. *)

From Coq Require Import List NArith ZArith Lia Bool Ring Arith.
From Coq Require Import ZifyBool ZifyNat ZifyN.
From Verif Require Import Base Num Spec SpecFacts Laws Terms Dense DenseFacts.
Import ListNotations.

Section DenseArith.
Context {T : Type} (O : num T) (R : comring) (den : T -> car R) (L : lawful O R den).
Add Ring Rring_da : (r_theory R).
Notation dc := (dcoef R den).

Section Zip.
Variables (f : T -> T -> res T) (g : car R -> car R -> car R).
Hypothesis Hf : forall x y z, f x y = Ok z -> den z = g (den x) (den y).

Lemma zipM_coef l m r : length l = length m -> zipM f l m = Ok r ->
  forall d, (d < length l)%nat -> dc r d = g (dc l d) (dc m d).
Proof.
  revert m r. induction l as [|x l IH]; intros [|y m] r Hl H d Hd; simpl in *; try lia.
  inv_ok. rewrite !dcoef_cons. pose proof (zipM_length _ _ _ _ E0) as Hr.
  rewrite Hr. replace (length m) with (length l) by lia.
  destruct (Nat.eqb_spec d (length l)); [apply Hf; exact E|].
  apply (IH m); auto; lia.
Qed.

Lemma zip_suffix_coef l m r : (length m <= length l)%nat ->
  zip_suffix f l (length l - length m) m = Ok r ->
  length r = length l /\
  forall d, dc r d = if Nat.ltb d (length m) then g (dc l d) (dc m d) else dc l d.
Proof.
  intros Hl H. unfold zip_suffix in H. inv_ok. apply slice_from_ok in E. destruct E as [_ ->].
  pose proof (zipM_length _ _ _ _ E0) as Hr. rewrite skipn_length in Hr.
  set (off := (length l - length m)%nat) in *.
  assert (Hlen : length (skipn off l) = length m) by (rewrite skipn_length; lia).
  split.
  - rewrite app_length, firstn_length, Hr. lia.
  - intros d. rewrite dcoef_app, Hr. replace (length l - off)%nat with (length m) by lia.
    assert (Hb : dc l d = if Nat.ltb d (length m) then dc (skipn off l) d
                          else dc (firstn off l) (d - length m)).
    { rewrite <- (firstn_skipn off l) at 1. rewrite dcoef_app, Hlen. reflexivity. }
    destruct (Nat.ltb_spec d (length m)); rewrite Hb; [|reflexivity].
    eapply zipM_coef; eauto. lia.
Qed.

End Zip.

Section ZipDef.
Variables (f : T -> T -> res T) (def : car R -> car R -> Prop).
Hypothesis Hdef : forall x y, (exists z, f x y = Ok z) <-> def (den x) (den y).

Lemma zipM_defined l m : length l = length m ->
  (exists r, zipM f l m = Ok r) <-> forall d, (d < length l)%nat -> def (dc l d) (dc m d).
Proof.
  revert m. induction l as [|x l IH]; intros [|y m] Hl; simpl in *; try lia.
  - split; [intros; lia|eauto].
  - split.
    + intros (r & H) d Hd. inv_ok. rewrite !dcoef_cons. replace (length m) with (length l) by lia.
      destruct (Nat.eqb_spec d (length l)); [apply Hdef; eauto|].
      apply IH; [lia|eauto|lia].
    + intros H. destruct (proj2 (IH m ltac:(lia))) as (r & Hr).
      { intros d Hd. specialize (H d ltac:(lia)). rewrite !dcoef_cons in H.
        replace (length m) with (length l) in H by lia.
        destruct (Nat.eqb_spec d (length l)); [lia|exact H]. }
      specialize (H (length l) ltac:(lia)). rewrite !dcoef_cons in H.
      replace (length m) with (length l) in H by lia. rewrite Nat.eqb_refl in H.
      apply Hdef in H. destruct H as (z & Hz). rewrite Hz, Hr. simpl. eauto.
Qed.

Lemma zip_suffix_defined l m : (length m <= length l)%nat ->
  (exists r, zip_suffix f l (length l - length m) m = Ok r) <->
  forall d, (d < length m)%nat -> def (dc l d) (dc m d).
Proof.
  intros Hl. unfold zip_suffix, slice_from.
  destruct (Nat.leb_spec (length l - length m) (length l)); [|lia]. cbn [bind].
  set (off := (length l - length m)%nat) in *.
  assert (Hlen : length (skipn off l) = length m) by (rewrite skipn_length; lia).
  assert (E : forall d, (d < length m)%nat -> dc (skipn off l) d = dc l d).
  { intros d Hd. rewrite <- (firstn_skipn off l) at 2. rewrite dcoef_app, Hlen.
    destruct (Nat.ltb_spec d (length m)); [reflexivity|lia]. }
  transitivity (exists r, zipM f (skipn off l) m = Ok r).
  - split; intros (r & Hr); [inv_ok; eauto|]. rewrite Hr. simpl. eauto.
  - rewrite zipM_defined by exact Hlen. rewrite Hlen. split; intros HH d Hd.
    + rewrite <- E by exact Hd. auto.
    + rewrite E by exact Hd. auto.
Qed.

End ZipDef.

Section Map.
Variables (f : T -> res T) (g : car R -> car R).
Hypothesis Hf : forall x z, f x = Ok z -> den z = g (den x).
Hypothesis Hg : g r0 = r0.

Lemma mapM_coef l r : mapM f l = Ok r -> forall d, dc r d = g (dc l d).
Proof.
  revert r. induction l as [|x l IH]; intros r H d; simpl in H.
  - inv_ok. rewrite !dcoef_nil. auto.
  - inv_ok. rewrite !dcoef_cons. rewrite (mapM_length _ _ _ E0).
    destruct (Nat.eqb_spec d (length l)); [apply Hf; exact E|]. apply IH. exact E0.
Qed.

End Map.

Section MapDef.
Variables (f : T -> res T) (def : car R -> Prop).
Hypothesis Hdef : forall x, (exists z, f x = Ok z) <-> def (den x).

Lemma mapM_defined l : (exists r, mapM f l = Ok r) <-> forall d, (d < length l)%nat -> def (dc l d).
Proof.
  induction l as [|x l IH]; simpl.
  - split; [intros; lia|eauto].
  - split.
    + intros (r & H) d Hd. inv_ok. rewrite dcoef_cons.
      destruct (Nat.eqb_spec d (length l)); [apply Hdef; eauto|]. apply IH; [eauto|lia].
    + intros H. destruct (proj2 IH) as (r & Hr).
      { intros d Hd. specialize (H d ltac:(lia)). rewrite dcoef_cons in H.
        destruct (Nat.eqb_spec d (length l)); [lia|exact H]. }
      specialize (H (length l) ltac:(lia)). rewrite dcoef_cons, Nat.eqb_refl in H.
      apply Hdef in H. destruct H as (z & Hz). rewrite Hz, Hr. simpl. eauto.
Qed.
End MapDef.

(** ** results, when they return *)

Lemma dense_add_assign_coef a b r : dense_add_assign O a b = Ok r -> peq (dc r) (padd (dc a) (dc b)).
Proof.
  unfold dense_add_assign. intros H d. unfold padd.
  destruct (Nat.ltb_spec (length a) (length b)).
  - apply (zip_suffix_coef _ radd) in H; [|apply (lw_add _ _ _ L)|lia]. destruct H as [_ ->].
    destruct (Nat.ltb_spec d (length a)); [ring|]. rewrite (dcoef_overflow R den a d) by lia. ring.
  - apply (zip_suffix_coef _ radd) in H; [|apply (lw_add _ _ _ L)|lia]. destruct H as [_ ->].
    destruct (Nat.ltb_spec d (length b)); [ring|]. rewrite (dcoef_overflow R den b d) by lia. ring.
Qed.

Lemma dense_add_assign_strip a b : dense_add O a b = (r <- dense_add_assign O a b ;; Ok (strip O r)).
Proof.
  unfold dense_add, dense_add_assign. destruct (Nat.ltb (length a) (length b)).
  - destruct zip_suffix; simpl; try reflexivity. apply dense_new_ok.
  - destruct zip_suffix; simpl; try reflexivity. apply dense_new_ok.
Qed.

Lemma dense_sub_assign_coef a b r : dense_sub_assign O a b = Ok r -> peq (dc r) (psub (dc a) (dc b)).
Proof.
  unfold dense_sub_assign. intros H d. unfold psub.
  destruct (Nat.ltb_spec (length a) (length b)).
  - inv_ok. set (off := (length b - length a)%nat) in *.
    assert (Hlen : length (skipn off b) = length a) by (rewrite skipn_length; lia).
    pose proof (zipM_length _ _ _ _ E0) as Hz.
    rewrite dcoef_app, Hz, Hlen.
    assert (Hb : dc b d = if Nat.ltb d (length a) then dc (skipn off b) d
                          else dc (firstn off b) (d - length a)).
    { rewrite <- (firstn_skipn off b) at 1. rewrite dcoef_app, Hlen. reflexivity. }
    rewrite Hb. destruct (Nat.ltb_spec d (length a)).
    + rewrite (zipM_coef _ (fun x y => rsub y x)
        (fun x y z (Hx : sub O y x = Ok z) => lw_sub _ _ _ L y x z Hx) _ _ _ Hlen E0) by lia.
      reflexivity.
    + rewrite (dcoef_overflow R den a d) by lia.
      rewrite (mapM_coef _ ropp (lw_neg _ _ _ L) ltac:(ring) _ _ E). ring.
  - apply (zip_suffix_coef _ rsub) in H; [|apply (lw_sub _ _ _ L)|lia]. destruct H as [_ ->].
    destruct (Nat.ltb_spec d (length b)); [reflexivity|]. rewrite (dcoef_overflow R den b d) by lia. ring.
Qed.

Lemma dense_sub_assign_ref_coef a b r : dense_sub_assign_ref O a b = Ok r -> peq (dc r) (psub (dc a) (dc b)).
Proof.
  unfold dense_sub_assign_ref. intros H d. unfold psub.
  destruct (Nat.ltb_spec (length a) (length b)).
  - inv_ok. set (off := (length b - length a)%nat) in *.
    assert (Hlen : length (skipn off b) = length a) by (rewrite skipn_length; lia).
    pose proof (zipM_length _ _ _ _ E) as Hz.
    rewrite dcoef_app, Hz.
    assert (Hb : dc b d = if Nat.ltb d (length a) then dc (skipn off b) d
                          else dc (firstn off b) (d - length a)).
    { rewrite <- (firstn_skipn off b) at 1. rewrite dcoef_app, Hlen. reflexivity. }
    rewrite Hb. destruct (Nat.ltb_spec d (length a)).
    + rewrite (zipM_coef _ _ (lw_sub _ _ _ L) _ _ _ (eq_sym Hlen) E) by lia. reflexivity.
    + rewrite (dcoef_overflow R den a d) by lia.
      rewrite (mapM_coef _ ropp (lw_neg _ _ _ L) ltac:(ring) _ _ E0). ring.
  - apply (zip_suffix_coef _ rsub) in H; [|apply (lw_sub _ _ _ L)|lia]. destruct H as [_ ->].
    destruct (Nat.ltb_spec d (length b)); [reflexivity|]. rewrite (dcoef_overflow R den b d) by lia. ring.
Qed.

Lemma dense_neg_coef a r : dense_neg O a = Ok r -> peq (dc r) (popp (dc a)).
Proof. intros H d. apply (mapM_coef _ ropp (lw_neg _ _ _ L) ltac:(ring) _ _ H). Qed.

Lemma dense_scale_assign_coef a c r : dense_scale_assign O a c = Ok r -> peq (dc r) (pscale (dc a) (den c)).
Proof.
  intros H d. unfold pscale. apply (mapM_coef (fun x => mul O x c) (fun x => rmul x (den c))).
  - intros x z Hz. apply (lw_mul _ _ _ L _ _ _ Hz).
  - ring.
  - exact H.
Qed.

Lemma dense_scale_strip a c : dense_scale O a c = (r <- dense_scale_assign O a c ;; Ok (strip O r)).
Proof.
  unfold dense_scale, dense_scale_assign. destruct mapM; simpl; try reflexivity. apply dense_new_ok.
Qed.

(** Scalar division: every coefficient is the quotient the type's [/] gives. *)
Lemma mapM_Forall2 (f : T -> res T) l r : mapM f l = Ok r <-> Forall2 (fun x y => f x = Ok y) l r.
Proof.
  revert r. induction l as [|x l IH]; intros r; simpl; split; intros H.
  - inv_ok. constructor.
  - inversion H. reflexivity.
  - inv_ok. constructor; [exact E|]. apply IH, E0.
  - inversion H as [|? y ? r' Hy Hr]; subst. rewrite Hy. simpl. apply IH in Hr. rewrite Hr. reflexivity.
Qed.

Lemma Forall2_len {A B} (P : A -> B -> Prop) l r : Forall2 P l r -> length l = length r.
Proof. induction 1; simpl; auto. Qed.

Lemma dense_div_scalar_strip a c :
  dense_div_scalar O a c = (r <- dense_div_scalar_assign O a c ;; Ok (strip O r)).
Proof.
  unfold dense_div_scalar, dense_div_scalar_assign. destruct mapM; simpl; try reflexivity. apply dense_new_ok.
Qed.

(** Over a field the quotient is exact. *)
Lemma dense_div_scalar_exact a c : exact_div O R den -> is_zero O c = false ->
  exists r, dense_div_scalar_assign O a c = Ok r /\ peq (pscale (dc r) (den c)) (dc a).
Proof.
  intros X Hc. unfold dense_div_scalar_assign.
  assert (exists r, mapM (fun x => div O x c) a = Ok r) as (r & Hr).
  { apply mapM_ok_iff. apply Forall_forall. intros x _. destruct (X x c Hc) as (y & Hy & _). eauto. }
  exists r. split; [exact Hr|]. intros d. unfold pscale.
  apply mapM_Forall2 in Hr. revert d. induction Hr as [|x y l r Hy Hr IH]; intros d.
  - rewrite !dcoef_nil. ring.
  - rewrite !dcoef_cons. pose proof (Forall2_len _ _ _ Hr) as Hlen. rewrite Hlen.
    destruct (Nat.eqb_spec d (length r)); [|apply IH].
    destruct (X x c Hc) as (y' & Hy' & E). congruence.
Qed.

(** ** when they return *)

Section Fits.
Context (fits : car R -> Prop) (F : fits_ops O R den fits).

Lemma fits_0 : fits r0.
Proof. rewrite <- (lw_zero _ _ _ L). apply (fo_den _ _ _ _ F). Qed.

Lemma fits_coef l d : fits (dc l d).
Proof.
  induction l as [|c l IH]; [rewrite dcoef_nil; apply fits_0|].
  rewrite dcoef_cons. destruct (Nat.eqb d (length l)); [apply (fo_den _ _ _ _ F)|exact IH].
Qed.

Lemma dense_add_assign_returns a b :
  (exists r, dense_add_assign O a b = Ok r) <-> forall d, fits (padd (dc a) (dc b) d).
Proof.
  unfold dense_add_assign, padd. destruct (Nat.ltb_spec (length a) (length b)).
  - rewrite (zip_suffix_defined _ (fun x y => fits (radd x y)) (fo_add _ _ _ _ F)) by lia. split; intros H0 d.
    + destruct (Nat.ltb_spec d (length a)).
      * replace (radd (dc a d) (dc b d)) with (radd (dc b d) (dc a d)) by ring. auto.
      * rewrite (dcoef_overflow R den a d) by lia. rewrite radd_0_l. apply fits_coef.
    + intros _. replace (radd (dc b d) (dc a d)) with (radd (dc a d) (dc b d)) by ring. auto.
  - rewrite (zip_suffix_defined _ (fun x y => fits (radd x y)) (fo_add _ _ _ _ F)) by lia. split; intros H0 d; auto.
    destruct (Nat.ltb_spec d (length b)); [auto|].
    rewrite (dcoef_overflow R den b d) by lia. rewrite radd_0_r. apply fits_coef.
Qed.

Lemma dense_sub_assign_returns a b :
  (exists r, dense_sub_assign O a b = Ok r) <-> forall d, fits (psub (dc a) (dc b) d).
Proof.
  unfold dense_sub_assign, psub. destruct (Nat.ltb_spec (length a) (length b)).
  - set (off := (length b - length a)%nat) in *.
    assert (Hlen : length (skipn off b) = length a) by (rewrite skipn_length; lia).
    pose proof (mapM_defined _ (fun x => fits (ropp x)) (fo_neg _ _ _ _ F) (firstn off b)) as H1.
    pose proof (zipM_defined (fun t v => sub O v t) (fun x y => fits (rsub y x))
      (fun x y => fo_sub _ _ _ _ F y x) (skipn off b) a Hlen) as H2.
    assert (Hb : forall d, dc b d = if Nat.ltb d (length a) then dc (skipn off b) d
                                    else dc (firstn off b) (d - length a)).
    { intros d. rewrite <- (firstn_skipn off b) at 1. rewrite dcoef_app, Hlen. reflexivity. }
    split.
    + intros (r & Hr). inv_ok. intros d. rewrite Hb.
      destruct (Nat.ltb_spec d (length a)).
      * apply (proj1 H2); [eauto|lia].
      * rewrite (dcoef_overflow R den a d) by lia.
        replace (rsub r0 (dc (firstn off b) (d - length a))) with (ropp (dc (firstn off b) (d - length a))) by ring.
        destruct (Nat.ltb_spec (d - length a) (length (firstn off b))).
        -- apply (proj1 H1); eauto.
        -- rewrite dcoef_overflow by lia. replace (@ropp R r0) with (@r0 R) by ring. apply fits_0.
    + intros H0.
      destruct (proj2 H1) as (r1 & ->).
      { intros d Hd. specialize (H0 (d + length a)%nat). rewrite Hb in H0.
        destruct (Nat.ltb_spec (d + length a) (length a)); [lia|].
        rewrite (dcoef_overflow R den a) in H0 by lia.
        replace (d + length a - length a)%nat with d in H0 by lia.
        replace (ropp (dc (firstn off b) d)) with (rsub r0 (dc (firstn off b) d)) by ring. exact H0. }
      destruct (proj2 H2) as (r2 & ->).
      { intros d Hd. specialize (H0 d). rewrite Hb in H0.
        destruct (Nat.ltb_spec d (length a)); [exact H0|lia]. }
      simpl. eauto.
  - rewrite (zip_suffix_defined _ (fun x y => fits (rsub x y)) (fo_sub _ _ _ _ F)) by lia. split; intros H0 d; auto.
    destruct (Nat.ltb_spec d (length b)); [auto|].
    rewrite (dcoef_overflow R den b d) by lia.
    replace (rsub (dc a d) r0) with (dc a d) by ring. apply fits_coef.
Qed.

Lemma dense_sub_assign_ref_returns a b :
  (exists r, dense_sub_assign_ref O a b = Ok r) <-> forall d, fits (psub (dc a) (dc b) d).
Proof.
  rewrite <- dense_sub_assign_returns. unfold dense_sub_assign_ref, dense_sub_assign.
  destruct (Nat.ltb_spec (length a) (length b)); [|reflexivity].
  set (off := (length b - length a)%nat) in *.
  assert (Hlen : length (skipn off b) = length a) by (rewrite skipn_length; lia).
  pose proof (zipM_defined (fun t v => sub O v t) (fun x y => fits (rsub y x))
      (fun x y => fo_sub _ _ _ _ F y x) (skipn off b) a Hlen) as H2.
  pose proof (zipM_defined (fun x y => sub O x y) (fun x y => fits (rsub x y))
      (fo_sub _ _ _ _ F) a (skipn off b) (eq_sym Hlen)) as H3.
  rewrite Hlen in H2.
  split; intros (r & Hr); inv_ok.
  - destruct (proj2 H2 (proj1 H3 (ex_intro _ _ E))) as (r2 & ->). rewrite E0. simpl. eauto.
  - destruct (proj2 H3 (proj1 H2 (ex_intro _ _ E0))) as (r2 & ->). rewrite E. simpl. eauto.
Qed.

Lemma dense_neg_returns a : (exists r, dense_neg O a = Ok r) <-> forall d, fits (popp (dc a) d).
Proof.
  unfold dense_neg, popp. rewrite (mapM_defined _ (fun x => fits (ropp x)) (fo_neg _ _ _ _ F)). split; auto.
  intros H d. destruct (Nat.ltb_spec d (length a)); [auto|].
  rewrite dcoef_overflow by lia. replace (@ropp R r0) with (@r0 R) by ring. apply fits_0.
Qed.

Lemma dense_scale_assign_returns a c :
  (exists r, dense_scale_assign O a c = Ok r) <-> forall d, fits (pscale (dc a) (den c) d).
Proof.
  unfold dense_scale_assign, pscale.
  rewrite (mapM_defined _ (fun x => fits (rmul x (den c))) (fun x => fo_mul _ _ _ _ F x c)). split; auto.
  intros H d. destruct (Nat.ltb_spec d (length a)); [auto|].
  rewrite dcoef_overflow by lia. replace (rmul r0 (den c)) with (@r0 R) by ring. apply fits_0.
Qed.

End Fits.

Lemma strip_returns {A} (m : res A) (f : A -> A) : (exists r, (x <- m ;; Ok (f x)) = Ok r) <-> exists r, m = Ok r.
Proof. split; intros (r & H); [inv_ok; eauto|rewrite H; simpl; eauto]. Qed.

End DenseArith.
