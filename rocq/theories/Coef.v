(** Coefficients of a dense polynomial as elements of the coefficient type itself, for types
    that obey no laws. *)

From Coq Require Import List NArith ZArith Lia Bool Arith.
From Coq Require Import ZifyBool ZifyNat ZifyN.
From Verif Require Import Base Num Spec SpecFacts Laws Terms Dense DenseFacts DenseArith DenseMul.
Import ListNotations.

Section Coef.
Context {T : Type} (z : T).

(** The coefficient of x^d of a list of coefficients, highest first; [z] beyond its length. *)
Definition cf (l : list T) (d : nat) : T := nth d (rev l) z.

Lemma cf_nil d : cf [] d = z.
Proof. unfold cf. destruct d; reflexivity. Qed.
Lemma cf_overflow l d : (length l <= d)%nat -> cf l d = z.
Proof. intros H. apply nth_overflow. rewrite rev_length. exact H. Qed.
Lemma cf_app l1 l2 d : cf (l1 ++ l2) d = if (d <? length l2)%nat then cf l2 d else cf l1 (d - length l2).
Proof.
  unfold cf. rewrite rev_app_distr. destruct (Nat.ltb_spec d (length l2)).
  - apply app_nth1. rewrite rev_length. assumption.
  - rewrite app_nth2; rewrite rev_length; [reflexivity|assumption].
Qed.
Lemma cf_cons c l d : cf (c :: l) d = if (d =? length l)%nat then c else cf l d.
Proof.
  change (c :: l) with ([c] ++ l). rewrite cf_app. destruct (Nat.eqb_spec d (length l)) as [->|H].
  - rewrite Nat.ltb_irrefl, Nat.sub_diag. reflexivity.
  - destruct (Nat.ltb_spec d (length l)); [reflexivity|]. rewrite !cf_overflow; cbn [length]; auto; lia.
Qed.
Lemma cf_snoc l c d : cf (l ++ [c]) d = match d with 0%nat => c | S d' => cf l d' end.
Proof. rewrite cf_app. destruct d as [|d]; [reflexivity|]. cbn. f_equal. lia. Qed.
Lemma cf_repeat n d : cf (repeat z n) d = z.
Proof.
  induction n as [|n IH]; [apply cf_nil|]. cbn [repeat]. rewrite cf_cons, IH. destruct (_ =? _)%nat; reflexivity.
Qed.
Lemma cf_in l d : (d < length l)%nat -> In (cf l d) l.
Proof. intros H. apply in_rev. apply nth_In. rewrite rev_length. exact H. Qed.
Lemma cf_Forall (P : T -> Prop) l : P z -> Forall P l <-> forall d, P (cf l d).
Proof.
  intros Hz. split.
  - intros H d. destruct (Nat.ltb_spec d (length l)); [|rewrite cf_overflow; assumption].
    rewrite Forall_forall in H. apply H, cf_in. assumption.
  - intros H. apply Forall_forall. intros x Hx. apply in_rev in Hx. apply (In_nth _ _ z) in Hx. destruct Hx as (d & _ & E).
    rewrite <- E. apply H.
Qed.

Lemma dcoef_cf (R : comring) (den : T -> car R) l d : den z = r0 -> dcoef R den l d = den (cf l d).
Proof. intros H. unfold dcoef, be_coef, cf. rewrite <- map_rev, <- H. apply map_nth. Qed.

Lemma zipM_cf (f : T -> T -> res T) l : forall m r, length l = length m -> zipM f l m = Ok r ->
  length r = length l /\ forall d, (d < length l)%nat -> f (cf l d) (cf m d) = Ok (cf r d).
Proof.
  induction l as [|x l IH]; intros [|y m] r Hl H; try discriminate Hl.
  - cbn in H. injection H as <-. split; [reflexivity|]. cbn. lia.
  - cbn in H. inv_ok. cbn in Hl. injection Hl as Hl. destruct (IH m _ Hl E0) as [H1 H2]. cbn [length]. split; [lia|].
    intros d Hd. rewrite !cf_cons, H1, <- Hl. destruct (Nat.eqb_spec d (length l)) as [->|]; [exact E|]. apply H2. lia.
Qed.

Lemma zip_suffix_cf (f : T -> T -> res T) l m r : (length m <= length l)%nat ->
  zip_suffix f l (length l - length m) m = Ok r ->
  length r = length l /\
  forall d, if (d <? length m)%nat then f (cf l d) (cf m d) = Ok (cf r d) else cf r d = cf l d.
Proof.
  intros Hl H. unfold zip_suffix in H. inv_ok. apply slice_from_ok in E. destruct E as [_ ->].
  set (n := (length l - length m)%nat) in *.
  assert (Hs : length (skipn n l) = length m) by (rewrite skipn_length; unfold n; lia).
  destruct (zipM_cf f _ m _ Hs E0) as [H1 H2]. rewrite Hs in *.
  assert (Hf : length (firstn n l) = n) by (rewrite firstn_length; unfold n; lia).
  split; [rewrite app_length, Hf, H1; unfold n; lia|]. intros d. rewrite cf_app, H1.
  assert (El : cf l d = if (d <? length m)%nat then cf (skipn n l) d else cf (firstn n l) (d - length m)).
  { rewrite <- (firstn_skipn n l) at 1. rewrite cf_app, Hs. reflexivity. }
  rewrite El.
  destruct (Nat.ltb_spec d (length m)); [apply H2; assumption|reflexivity].
Qed.

Lemma mapM_cf (f : T -> res T) l r : mapM f l = Ok r ->
  length r = length l /\ forall d, (d < length l)%nat -> f (cf l d) = Ok (cf r d).
Proof.
  revert r. induction l as [|x l IH]; intros r H; cbn in H; inv_ok.
  - split; [reflexivity|]. cbn. lia.
  - destruct (IH _ E0) as [H1 H2]. cbn [length]. split; [lia|]. intros d Hd. rewrite !cf_cons, H1.
    destruct (Nat.eqb_spec d (length l)); [exact E|]. apply H2. lia.
Qed.

Context (O : num T).

Lemma strip_cf l d : if (d <? length (strip O l))%nat then cf (strip O l) d = cf l d
  else (d < length l)%nat -> is_zero O (cf l d) = true.
Proof.
  destruct (strip_split O l) as (pre & E & _ & Hp & _).
  assert (El : cf l d = if (d <? length (strip O l))%nat then cf (strip O l) d else cf pre (d - length (strip O l))).
  { rewrite E at 1. apply cf_app. }
  assert (Hlen : length l = (length pre + length (strip O l))%nat) by (rewrite E at 1; apply app_length).
  rewrite El, Hlen.
  destruct (Nat.ltb_spec d (length (strip O l))); [reflexivity|]. intros Hd.
  unfold all_zero in Hp. rewrite Forall_forall in Hp. apply Hp, cf_in. lia.
Qed.

Lemma mul_row_cf rt lhs tail r k : length tail = (length lhs + k)%nat ->
  mul_row O rt lhs tail = Ok r ->
  length r = length tail /\
  forall d, if ((k <=? d) && (d <? k + length lhs))%nat
            then exists p, mul O rt (cf lhs (d - k)) = Ok p /\ add O (cf tail d) p = Ok (cf r d)
            else cf r d = cf tail d.
Proof.
  intros Hl H. pose proof (zipM_length _ _ _ _ H) as Hr. split; [exact Hr|]. intros d.
  unfold mul_row in H. rewrite zipM_prefix in H by lia. inv_ok.
  set (t1 := firstn (length lhs) tail) in *. set (t2 := skipn (length lhs) tail) in *.
  assert (H1 : length t1 = length lhs) by (unfold t1; rewrite firstn_length; lia).
  assert (H2 : length t2 = k) by (unfold t2; rewrite skipn_length; lia).
  assert (Ht : tail = t1 ++ t2) by (unfold t1, t2; symmetry; apply firstn_skipn).
  clearbody t1 t2. subst tail. rewrite !cf_app, H2. destruct (zipM_cf _ _ _ _ H1 E) as [H3 H4].
  destruct (Nat.leb_spec k d); destruct (Nat.ltb_spec d k); try lia; cbn [andb]; [|reflexivity].
  destruct (Nat.ltb_spec d (k + length lhs)).
  - specialize (H4 (d - k)%nat ltac:(lia)). apply bind_ok in H4. exact H4.
  - rewrite !cf_overflow by lia. reflexivity.
Qed.

End Coef.
