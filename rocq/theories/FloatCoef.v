(** Operations on float polynomials that compute each coefficient with one rounded operation. *)

From Coq Require Import List NArith ZArith Reals Lia Lra Bool Arith Sorted.
From Coq Require Import ZifyBool ZifyNat ZifyN.
From Flocq Require Import Core BinarySingleNaN.
From Verif Require Import Base Num Spec SpecFacts Laws Dense DenseFacts DenseArith DenseMul DenseCalc Sparse SparseFacts SparseArith.
From Verif Require Import RealNum Floats FloatFacts FloatErr FloatEval SimInst Coef.
Import ListNotations.
Local Open Scope R_scope.

(** The same number; zeros of either sign count as the same. *)
Definition fsame {f} (x y : flt f) : Prop := x = y \/ feqb x (fzero f) = true /\ feqb y (fzero f) = true.

Section FSame.
Context {f : fty}.
Implicit Types x y a b : flt f.

Lemma fsame_refl x : fsame x x.
Proof. left. reflexivity. Qed.
Lemma fsame_sym x y : fsame x y -> fsame y x.
Proof. intros [->|[H1 H2]]; [apply fsame_refl|right; auto]. Qed.
Lemma fsame_trans x y z : fsame x y -> fsame y z -> fsame x z.
Proof. intros [->|[H1 H2]] H; [exact H|]. destruct H as [<-|[H3 H4]]; right; auto. Qed.

Lemma feqb_zero x : feqb x (fzero f) = true <-> exists s, x = B754_zero s.
Proof.
  split.
  - destruct x as [s|[]| |[] m e H]; cbn; intros K; try discriminate K. exists s. reflexivity.
  - intros (s & ->). reflexivity.
Qed.
Lemma fsame_zeros s t : fsame (B754_zero s : flt f) (B754_zero t).
Proof. right. split; reflexivity. Qed.
Lemma fsame_B x y : fsame x y -> B2R x = B2R y /\ is_finite x = is_finite y.
Proof.
  intros [->|[H1 H2]]; [auto|]. apply feqb_zero in H1, H2. destruct H1 as (s & ->), H2 as (t & ->). split; reflexivity.
Qed.

Lemma fadd_comm a b : fadd a b = fadd b a.
Proof.
  destruct (is_finite a) eqn:Ha.
  2:{ destruct a as [s|s| |s m e H]; try discriminate Ha; destruct b as [t|t| |t m' e' H']; try reflexivity.
      destruct s, t; reflexivity. }
  destruct (is_finite b) eqn:Hb.
  2:{ destruct b as [t|t| |t m' e' H']; try discriminate Hb; destruct a as [s|s| |s m e H]; try reflexivity; discriminate Ha. }
  pose proof (Bplus_correct _ _ _ _ mode_NE a b Ha Hb) as K1.
  pose proof (Bplus_correct _ _ _ _ mode_NE b a Hb Ha) as K2. rewrite (Rplus_comm (B2R b)) in K2.
  unfold fadd. destruct (Rlt_bool _ _).
  - destruct K1 as (A1 & A2 & A3), K2 as (B1 & B2 & B3). apply B2R_Bsign_inj; try assumption; [congruence|].
    rewrite A3, B3. destruct (Rcompare _ _); try reflexivity. apply andb_comm.
  - destruct K1 as (A1 & A2), K2 as (B1 & B2). apply B2SF_inj. rewrite A1, B1, A2. reflexivity.
Qed.
Lemma fmul_comm a b : fmul a b = fmul b a.
Proof.
  assert (G : is_finite a = true -> is_finite b = true -> fmul a b = fmul b a).
  { intros Ha Hb. pose proof (Bmult_correct _ _ _ _ mode_NE a b) as K1. pose proof (Bmult_correct _ _ _ _ mode_NE b a) as K2.
    rewrite (Rmult_comm (B2R b)), Ha, Hb in K2. rewrite Ha, Hb in K1. unfold fmul. destruct (Rlt_bool _ _).
    - destruct K1 as (A1 & A2 & A3), K2 as (B1 & B2 & B3). apply B2R_Bsign_inj; [exact A2|exact B2|congruence|].
      assert (N : forall x, is_finite x = true -> @is_nan (fprec f) (femax f) x = false) by (intros [| | |]; cbn; congruence).
      etransitivity; [apply A3, N, A2|]. etransitivity; [apply xorb_comm|]. symmetry. apply B3, N, B2.
    - apply B2SF_inj. etransitivity; [exact K1|]. rewrite K2. f_equal. apply xorb_comm. }
  destruct (is_finite a) eqn:Ha, (is_finite b) eqn:Hb; [apply G; reflexivity| | |]; clear G.
  all: destruct a as [s|s| |s m e H]; try discriminate Ha; destruct b as [t|t| |t m' e' H']; try discriminate Hb; try reflexivity;
    unfold fmul; cbn; rewrite xorb_comm; reflexivity.
Qed.

Lemma fadd_zero_r a s : fsame a (fadd a (B754_zero s)).
Proof. destruct a as [t|t| |t m e H]; try apply fsame_refl. cbn. destruct s, t; cbn; apply fsame_zeros. Qed.
Lemma fsub_zero_r a s : fsame a (fsub a (B754_zero s)).
Proof. destruct a as [t|t| |t m e H]; try apply fsame_refl. cbn. destruct s, t; cbn; apply fsame_zeros. Qed.
Lemma fsub_zero_l a s : fsame (fneg a) (fsub (B754_zero s) a).
Proof. destruct a as [t|t| |t m e H]; try apply fsame_refl. cbn. destruct s, t; cbn; apply fsame_zeros. Qed.

(** A whole number other than zero has one representation. *)
Lemma fint_unique x y z : fint x z -> fint y z -> z <> 0%Z -> x = y.
Proof.
  intros [Fx Ex] [Fy Ey] Hz. apply B2R_Bsign_inj; try assumption; [congruence|].
  assert (S : forall w, is_finite w = true -> B2R w = IZR z -> @Bsign (fprec f) (femax f) w = (z <? 0)%Z).
  { intros [s|s| |s m e H] Fw Ew; try discriminate Fw.
    - cbn in Ew. apply eq_IZR in Ew. congruence.
    - cbn [Bsign]. cbn in Ew. destruct s.
      + assert (K : IZR z < 0). { rewrite <- Ew. apply F2R_lt_0. reflexivity. }
        apply lt_IZR in K. lia.
      + assert (K : 0 < IZR z). { rewrite <- Ew. apply F2R_gt_0. reflexivity. }
        apply lt_IZR in K. lia. }
  rewrite (S x Fx Ex), (S y Fy Ey). reflexivity.
Qed.
End FSame.

Section Dense.
Context (chk : bool) (f : fty) (powi : flt f -> N -> flt f).
Notation O := (float_num chk f powi).
Notation c := (cf (fzero f)).
Implicit Types a b l r : list (flt f).

Lemma strip_same l d : fsame (c (strip O l) d) (c l d).
Proof.
  pose proof (strip_cf (fzero f) O l d) as H. destruct (Nat.ltb_spec d (length (strip O l))) as [H1|H1]; [left; exact H|].
  rewrite cf_overflow by exact H1. destruct (Nat.ltb_spec d (length l)) as [H2|H2].
  - right. split; [reflexivity|]. apply H, H2.
  - rewrite cf_overflow by exact H2. apply fsame_refl.
Qed.

Lemma mapM_total {A B} (g : A -> B) (l : list A) : mapM (fun x => Ok (g x)) l = Ok (map g l).
Proof. induction l as [|x l IH]; [reflexivity|]. cbn. rewrite IH. reflexivity. Qed.

Lemma zipM_total (g : flt f -> flt f -> flt f) (l m : list (flt f)) : exists r, zipM (fun x y => Ok (g x y)) l m = Ok r.
Proof.
  revert m. induction l as [|x l IH]; intros [|y m]; cbn; eauto. destruct (IH m) as (r & ->). eexists. reflexivity.
Qed.

Lemma zip_suffix_total (g : flt f -> flt f -> flt f) l n m : (n <= length l)%nat ->
  exists r, zip_suffix (fun x y => Ok (g x y)) l n m = Ok r.
Proof.
  intros H. unfold zip_suffix, slice_from. destruct (Nat.leb_spec n (length l)); [|lia]. cbn [bind].
  destruct (zipM_total g (skipn n l) m) as (r & ->). cbn. eauto.
Qed.

(** [g x 0 = x] lets the shorter operand be padded with zeros. *)
Lemma zip_suffix_same (g : flt f -> flt f -> flt f) l m r : (forall x, fsame x (g x (fzero f))) -> (length m <= length l)%nat ->
  zip_suffix (fun x y => Ok (g x y)) l (length l - length m) m = Ok r ->
  length r = length l /\ forall d, fsame (c r d) (g (c l d) (c m d)).
Proof.
  intros Hg Hl H. destruct (zip_suffix_cf (fzero f) _ _ _ _ Hl H) as [H1 H2]. split; [exact H1|]. intros d. specialize (H2 d).
  destruct (Nat.ltb_spec d (length m)) as [K|K].
  - injection H2 as ->. apply fsame_refl.
  - rewrite H2, (cf_overflow _ m) by exact K. apply Hg.
Qed.

Lemma dense_add_same a b : exists r, dense_add O a b = Ok r /\ forall d, fsame (c r d) (fadd (c a d) (c b d)).
Proof.
  unfold dense_add. destruct (Nat.ltb_spec (length a) (length b)) as [H|H].
  - destruct (zip_suffix_total fadd b (length b - length a) a ltac:(lia)) as (r & E). cbn [add float_num]. rewrite E. cbn [bind].
    rewrite dense_new_ok. eexists. split; [reflexivity|]. intros d.
    destruct (zip_suffix_same fadd b a r (fun x => fadd_zero_r x false) ltac:(lia) E) as [_ K].
    eapply fsame_trans; [apply strip_same|]. rewrite fadd_comm. apply K.
  - destruct (zip_suffix_total fadd a (length a - length b) b ltac:(lia)) as (r & E). cbn [add float_num]. rewrite E. cbn [bind].
    rewrite dense_new_ok. eexists. split; [reflexivity|]. intros d.
    destruct (zip_suffix_same fadd a b r (fun x => fadd_zero_r x false) ltac:(lia) E) as [_ K].
    eapply fsame_trans; [apply strip_same|]. apply K.
Qed.

Lemma dense_add_assign_same a b : exists r, dense_add_assign O a b = Ok r /\ forall d, fsame (c r d) (fadd (c a d) (c b d)).
Proof.
  unfold dense_add_assign. destruct (Nat.ltb_spec (length a) (length b)) as [H|H]; cbn [add float_num].
  - destruct (zip_suffix_total fadd b (length b - length a) a ltac:(lia)) as (r & E). rewrite E. eexists. split; [reflexivity|]. intros d.
    destruct (zip_suffix_same fadd b a r (fun x => fadd_zero_r x false) ltac:(lia) E) as [_ K]. rewrite fadd_comm. apply K.
  - destruct (zip_suffix_total fadd a (length a - length b) b ltac:(lia)) as (r & E). rewrite E. eexists. split; [reflexivity|]. intros d.
    destruct (zip_suffix_same fadd a b r (fun x => fadd_zero_r x false) ltac:(lia) E) as [_ K]. apply K.
Qed.

Lemma cf_map (g : flt f -> flt f) l d : (d < length l)%nat -> c (map g l) d = g (c l d).
Proof.
  intros H. unfold cf. rewrite <- map_rev. rewrite (nth_indep _ _ (g (fzero f))) by (rewrite map_length, rev_length; exact H).
  apply map_nth.
Qed.

Lemma dense_sub_same a b : exists r, dense_sub O a b = Ok r /\ dense_sub_assign_ref O a b = Ok r /\
  forall d, fsame (c r d) (fsub (c a d) (c b d)).
Proof.
  unfold dense_sub, dense_sub_assign, dense_sub_assign_ref. destruct (Nat.ltb_spec (length a) (length b)) as [H|H]; cbn [sub neg float_num].
  - set (n := (length b - length a)%nat). rewrite mapM_total. cbn [bind].
    assert (Hs : length (skipn n b) = length a) by (rewrite skipn_length; unfold n; lia).
    destruct (zipM_total (fun x y => fsub y x) (skipn n b) a) as (r & E). rewrite E. cbn [bind].
    destruct (zipM_total fsub a (skipn n b)) as (r' & E'). rewrite E'. cbn [bind].
    destruct (zipM_cf (fzero f) _ _ _ _ Hs E) as [R1 R2]. destruct (zipM_cf (fzero f) _ _ _ _ (eq_sym Hs) E') as [R1' R2'].
    assert (r = r').
    { apply nth_ext with (d := fzero f) (d' := fzero f); [congruence|]. intros k Hk.
      specialize (R2 (length r - 1 - k)%nat ltac:(lia)). specialize (R2' (length r - 1 - k)%nat ltac:(lia)).
      injection R2 as R2. injection R2' as R2'. rewrite R2' in R2. unfold cf in R2. symmetry in R2.
      rewrite !rev_nth in R2 by lia.
      replace (length r - S (length r - 1 - k))%nat with k in R2 by lia.
      replace (length r' - S (length r - 1 - k))%nat with k in R2 by lia. exact R2. }
    subst r'. eexists. split; [reflexivity|]. split; [reflexivity|]. intros d.
    assert (Hb : c b d = if (d <? length a)%nat then c (skipn n b) d else c (firstn n b) (d - length a)).
    { transitivity (c (firstn n b ++ skipn n b) d); [rewrite firstn_skipn; reflexivity|]. rewrite cf_app, Hs. reflexivity. }
    rewrite cf_app, R1, Hs, Hb. destruct (Nat.ltb_spec d (length a)) as [K|K].
    + specialize (R2 d ltac:(lia)). injection R2 as R2. left. symmetry. exact R2.
    + rewrite (cf_overflow _ a) by exact K. destruct (Nat.ltb_spec d (length b)) as [K2|K2].
      * rewrite cf_map by (rewrite firstn_length; unfold n; lia). apply fsub_zero_l.
      * rewrite !cf_overflow by (rewrite ?map_length, ?firstn_length; unfold n; lia). cbn. apply fsame_zeros.
  - destruct (zip_suffix_total fsub a (length a - length b) b ltac:(lia)) as (r & E). rewrite E. eexists. split; [reflexivity|].
    split; [reflexivity|]. intros d.
    destruct (zip_suffix_same fsub a b r (fun x => fsub_zero_r x false) ltac:(lia) E) as [_ K]. apply K.
Qed.

Lemma dense_neg_same a : exists r, dense_neg O a = Ok r /\ forall d, fsame (c r d) (fneg (c a d)).
Proof.
  unfold dense_neg. cbn [neg float_num]. rewrite mapM_total. eexists. split; [reflexivity|]. intros d.
  destruct (Nat.ltb_spec d (length a)) as [H|H].
  - left. apply cf_map, H.
  - rewrite !cf_overflow by (rewrite ?map_length; exact H). cbn. apply fsame_zeros.
Qed.

(** A scalar operation; there is nothing beyond the length, so that 0 * inf does not arise. *)
Lemma dense_map_same (g : flt f -> flt f) a : 
  exists r, (r <- mapM (fun x => Ok (g x)) a ;; dense_new O r) = Ok r /\ forall d, fsame (c r d) (if (d <? length a)%nat then g (c a d) else fzero f).
Proof.
  rewrite mapM_total. cbn [bind]. rewrite dense_new_ok. eexists. split; [reflexivity|]. intros d.
  eapply fsame_trans; [apply strip_same|]. left. destruct (Nat.ltb_spec d (length a)) as [H|H].
  - apply cf_map, H.
  - apply cf_overflow. rewrite map_length. exact H.
Qed.
Lemma dense_map_assign_same (g : flt f -> flt f) a :
  exists r, mapM (fun x => Ok (g x)) a = Ok r /\ forall d, fsame (c r d) (if (d <? length a)%nat then g (c a d) else fzero f).
Proof.
  rewrite mapM_total. eexists. split; [reflexivity|]. intros d. left. destruct (Nat.ltb_spec d (length a)) as [H|H].
  - apply cf_map, H.
  - apply cf_overflow. rewrite map_length. exact H.
Qed.

(** ** derivative and integral *)
Lemma deriv_loop_same l : forall deg, fint deg (Z.of_nat (S (length l))) -> (Z.of_nat (S (length l)) <= 2 ^ fprec f)%Z ->
  exists r, deriv_loop O deg l = Ok r /\ length r = length l /\
    forall d, (d < length l)%nat -> c r d = fmul (c l d) (f_of_Z f (Z.of_nat (S d))).
Proof.
  induction l as [|x l IH]; intros deg Hd Hm; cbn [deriv_loop].
  - exists []. split; [reflexivity|]. split; [reflexivity|]. cbn. lia.
  - cbn [sub mul one float_num bind]. cbn [length] in Hd, Hm.
    assert (Hd' : fint (fsub deg (f_of_Z f 1)) (Z.of_nat (S (length l)))).
    { replace (Z.of_nat (S (length l))) with (Z.of_nat (S (S (length l))) - 1)%Z by lia. apply fint_sub; [exact Hd| |lia].
      apply fint_of_Z. lia. }
    destruct (IH _ Hd' ltac:(lia)) as (r & E & Hl & Hc). rewrite E. cbn [bind]. eexists. split; [reflexivity|].
    split; [cbn; lia|]. intros d Hlt. rewrite !cf_cons, Hl. cbn [length] in Hlt. destruct (Nat.eqb_spec d (length l)) as [->|Hn].
    + f_equal. apply (fint_unique _ _ _ Hd'); [apply fint_of_Z; lia|lia].
    + apply Hc. lia.
Qed.

Lemma cont_limit_small : (Z.of_N (f_cont_limit f) <= 2 ^ fprec f)%Z.
Proof. apply f_cont_limit_small. Qed.

Lemma dense_derivative_same a : (len a <= f_cont_limit f)%N ->
  exists r, dense_derivative O a = Ok r /\
    forall d, fsame (c r d) (if (S d <? length a)%nat then fmul (c a (S d)) (f_of_Z f (Z.of_nat (S d))) else fzero f).
Proof.
  intros Ha. rewrite (dense_derivative_unfold O). pose proof (len_strip O a) as Hs. cbn [of_cont float_num]. unfold f_of_cont.
  destruct (N.ltb_spec (f_cont_limit f) (len (strip O a))); [lia|]. cbn [expect bind].
  pose proof cont_limit_small as Hm.
  assert (Hz : forall d x, (length (strip O a) <= S d)%nat -> fsame (fzero f) (if (S d <? length a)%nat then fmul (c a (S d)) (f_of_Z f (Z.of_nat (S d))) else fzero f) \/ x = 0).
  { intros d x Hd. left. destruct (Nat.ltb_spec (S d) (length a)) as [K|K]; [|apply fsame_refl].
    pose proof (strip_cf (fzero f) O a (S d)) as Hz. replace (S d <? length (strip O a))%nat with false in Hz by lia.
    specialize (Hz K). apply feqb_zero in Hz. destruct Hz as (s & ->).
    assert (F : is_finite (f_of_Z f (Z.of_nat (S d))) = true) by (apply f_of_Z_small; unfold len in *; lia).
    destruct (f_of_Z f (Z.of_nat (S d))); try discriminate F; cbn; apply fsame_zeros. }
  pose proof (split_last_spec (strip O a)) as Hl. destruct (split_last (strip O a)) as [[x terms]|].
  - assert (Hlen : length (strip O a) = S (length terms)) by (rewrite Hl, app_length; cbn; lia).
    destruct (deriv_loop_same terms (f_of_Z f (Z.of_N (len (strip O a))))) as (r & E & H1 & H2).
    + unfold len. rewrite Hlen. rewrite nat_N_Z. apply fint_of_Z. unfold len in *. lia.
    + unfold len in *. lia.
    + exists r. split; [exact E|]. intros d. destruct (Nat.ltb_spec d (length terms)) as [K|K].
      * rewrite H2 by exact K. replace (S d <? length a)%nat with true by (unfold len in *; lia). left. f_equal.
        pose proof (strip_cf (fzero f) O a (S d)) as Hz'. replace (S d <? length (strip O a))%nat with true in Hz' by lia.
        rewrite <- Hz', Hl, cf_snoc. reflexivity.
      * rewrite cf_overflow by lia. destruct (Hz d 1 ltac:(lia)) as [Z|Z]; [exact Z|lra].
  - eexists. split; [reflexivity|]. intros d. unfold dense_zero. rewrite cf_nil. rewrite Hl in Hz. destruct (Hz d 1 ltac:(cbn; lia)) as [Z|Z]; [exact Z|lra].
Qed.

Lemma integ_loop_same l : forall deg, fint deg (Z.of_nat (length l)) -> (Z.of_nat (length l) <= 2 ^ fprec f)%Z ->
  exists r, integ_loop O deg l = Ok r /\ length r = length l /\
    forall d, (d < length l)%nat -> c r d = fdiv (c l d) (f_of_Z f (Z.of_nat (S d))).
Proof.
  induction l as [|x l IH]; intros deg Hd Hm; cbn [integ_loop].
  - exists []. split; [reflexivity|]. split; [reflexivity|]. cbn. lia.
  - cbn [sub div one float_num bind]. cbn [length] in Hd, Hm.
    assert (Hd' : fint (fsub deg (f_of_Z f 1)) (Z.of_nat (length l))).
    { replace (Z.of_nat (length l)) with (Z.of_nat (S (length l)) - 1)%Z by lia. apply fint_sub; [exact Hd| |lia].
      apply fint_of_Z. lia. }
    destruct (IH _ Hd' ltac:(lia)) as (r & E & Hl & Hc). rewrite E. cbn [bind]. eexists. split; [reflexivity|].
    split; [cbn; lia|]. intros d Hlt. rewrite !cf_cons, Hl. cbn [length] in Hlt. destruct (Nat.eqb_spec d (length l)) as [->|Hn].
    + f_equal. apply (fint_unique _ _ _ Hd); [apply fint_of_Z; lia|lia].
    + apply Hc. lia.
Qed.

Lemma dense_integral_same a : (len a <= f_cont_limit f)%N ->
  exists r, dense_integral O a = Ok r /\ fsame (c r 0) (fzero f) /\
    forall d, fsame (c r (S d)) (if (d <? length a)%nat then fdiv (c a d) (f_of_Z f (Z.of_nat (S d))) else fzero f).
Proof.
  intros Ha. unfold dense_integral. rewrite usub_le.
  2:{ rewrite first_nonzero_index_fnz. pose proof (fnz_le O a). unfold len. lia. }
  cbn [bind]. rewrite strip_len. pose proof (len_strip O a) as Hs. pose proof cont_limit_small as Hm.
  cbn [of_cont float_num]. unfold f_of_cont.
  destruct (N.ltb_spec (f_cont_limit f) (len (strip O a))); [lia|]. cbn [expect bind]. rewrite slice_from_strip. cbn [bind].
  destruct (integ_loop_same (strip O a) (f_of_Z f (Z.of_N (len (strip O a))))) as (r & E & H1 & H2).
  { unfold len. rewrite nat_N_Z. apply fint_of_Z. unfold len in *. lia. }
  { unfold len in *. lia. }
  rewrite E. cbn [bind]. unfold vec_grow.
  assert (Hg : (len r + 1 <=? n_max_len O)%N = true).
  { assert (f_cont_limit f + 1 <= n_max_len O)%N by (destruct f; vm_compute; discriminate). unfold len in *. lia. }
  rewrite Hg. cbn [bind]. eexists. split; [reflexivity|]. split; [rewrite cf_snoc; apply fsame_refl|].
  intros d. rewrite cf_snoc. pose proof (strip_cf (fzero f) O a d) as Hz. destruct (Nat.ltb_spec d (length (strip O a))) as [K|K].
  - rewrite H2 by exact K. rewrite Hz. replace (d <? length a)%nat with true by (unfold len in *; lia). apply fsame_refl.
  - rewrite cf_overflow by lia. destruct (Nat.ltb_spec d (length a)) as [K2|K2]; [|apply fsame_refl].
    specialize (Hz K2). apply feqb_zero in Hz. destruct Hz as (s & ->).
    destruct (f_of_Z_small f (Z.of_nat (S d))) as [E1 E2]; [unfold len in *; lia|].
    destruct (f_of_Z f (Z.of_nat (S d))) as [t|t| |t m e Hb]; try discriminate E2.
    + exfalso. cbn in E1. apply eq_IZR in E1. lia.
    + cbn. apply fsame_zeros.
Qed.

End Dense.

(** ** sparse *)
Section Sparse.
Context (chk : bool) (f : fty) (powi : flt f -> N -> flt f).
Notation O := (float_num chk f powi).
Implicit Types a b m r : bmap (flt f).

Definition sget (m : bmap (flt f)) (k : N) : flt f := match m_get k m with Some v => v | None => fzero f end.

Lemma upsert_fold (none : flt f -> flt f) (some : flt f -> flt f -> flt f) es : NoDup (map fst es) -> forall m,
  exists r, foldM (fun m kv => m_upsert m (fst kv) (Ok (none (snd kv))) (fun v => Ok (some v (snd kv)))) m es = Ok r /\
  forall k, m_get k r = match m_get k es with
                        | None => m_get k m
                        | Some v => Some (match m_get k m with None => none v | Some w => some w v end) end.
Proof.
  induction es as [|[k0 v0] es IH]; intros Hn m.
  - exists m. split; reflexivity.
  - cbn [map] in Hn. apply NoDup_cons_iff in Hn. destruct Hn as [Hi Hn]. cbn [foldM fst snd].
    set (w0 := match m_get k0 m with None => none v0 | Some w => some w v0 end).
    assert (E : m_upsert m k0 (Ok (none v0)) (fun v => Ok (some v v0)) = Ok (m_insert k0 w0 m)).
    { unfold m_upsert, w0. destruct (m_get k0 m); reflexivity. }
    rewrite E. cbn [bind]. destruct (IH Hn (m_insert k0 w0 m)) as (r & Er & Hr). exists r. split; [exact Er|].
    intros k. rewrite Hr. cbn [m_get]. rewrite m_get_insert. destruct (N.eqb_spec k k0) as [->|Hk]; [|reflexivity].
    apply m_get_notin in Hi. cbn [fst] in Hi. rewrite Hi. reflexivity.
Qed.

Lemma sparse_add_assign_same a b : swf b -> exists r, sparse_add_assign O a b = Ok r /\ forall k, fsame (sget r k) (fadd (sget a k) (sget b k)).
Proof.
  intros Hb. destruct (upsert_fold (fun v => v) fadd b (sorted_nodup b (proj1 Hb)) a) as (r & E & H). exists r. split; [exact E|].
  intros k. unfold sget. rewrite H. destruct (m_get k b) as [v|]; destruct (m_get k a) as [w|]; try apply fsame_refl.
  - rewrite fadd_comm. apply fadd_zero_r.
  - apply fadd_zero_r.
Qed.
Lemma sparse_add_same a b : swf a -> swf b -> exists r, sparse_add O a b = Ok r /\ forall k, fsame (sget r k) (fadd (sget a k) (sget b k)).
Proof.
  intros Ha Hb. rewrite (sparse_add_comm_assign O) by exact Hb. destruct (sparse_add_assign_same b a Ha) as (r & E & H).
  exists r. split; [exact E|]. intros k. rewrite fadd_comm. apply H.
Qed.
Lemma sparse_sub_same a b : swf b -> exists r, sparse_sub O a b = Ok r /\ forall k, fsame (sget r k) (fsub (sget a k) (sget b k)).
Proof.
  intros Hb. destruct (upsert_fold fneg fsub b (sorted_nodup b (proj1 Hb)) a) as (r & E & H). exists r. split; [exact E|].
  intros k. unfold sget. rewrite H. destruct (m_get k b) as [v|]; destruct (m_get k a) as [w|]; try apply fsame_refl.
  - apply fsub_zero_l.
  - apply fsub_zero_r.
Qed.

Lemma map_inplace_same (g : flt f -> flt f) m : exists r, sparse_map_inplace (fun x => Ok (g x)) m = Ok r /\
  forall k, m_get k r = option_map g (m_get k m).
Proof.
  exists (map (fun kv => (fst kv, g (snd kv))) m). split.
  - apply (mapM_total (fun kv : N * flt f => (fst kv, g (snd kv)))).
  - intros k. induction m as [|[k0 v0] m IH]; [reflexivity|]. cbn [map m_get fst snd]. destruct (N.eqb k k0); [reflexivity|exact IH].
Qed.

Lemma sparse_neg_same m : swf m -> exists r, sparse_neg O m = Ok r /\ forall k, fsame (sget r k) (fneg (sget m k)).
Proof.
  intros Hm. rewrite (sparse_neg_inplace O) by exact Hm. destruct (map_inplace_same fneg m) as (r & E & H). exists r. split; [exact E|].
  intros k. unfold sget. rewrite H. destruct (m_get k m); [apply fsame_refl|apply fsame_zeros].
Qed.
Lemma sparse_scale_same m c : swf m -> exists r, sparse_scale O m c = Ok r /\ sparse_scale_assign O m c = Ok r /\
  forall k, sget r k = match m_get k m with Some v => fmul v c | None => fzero f end.
Proof.
  intros Hm. unfold sparse_scale, sparse_scale_assign. rewrite (map_rebuild_inplace _ m Hm). cbn [mul float_num].
  destruct (map_inplace_same (fun x => fmul x c) m) as (r & E & H). exists r. split; [exact E|]. split; [exact E|].
  intros k. unfold sget. rewrite H. destruct (m_get k m); reflexivity.
Qed.
Lemma sparse_div_scalar_fsame m c : swf m -> exists r, sparse_div_scalar O m c = Ok r /\ sparse_div_scalar_assign O m c = Ok r /\
  forall k, sget r k = match m_get k m with Some v => fdiv v c | None => fzero f end.
Proof.
  intros Hm. unfold sparse_div_scalar, sparse_div_scalar_assign. rewrite (map_rebuild_inplace _ m Hm). cbn [div float_num].
  destruct (map_inplace_same (fun x => fdiv x c) m) as (r & E & H). exists r. split; [exact E|]. split; [exact E|].
  intros k. unfold sget. rewrite H. destruct (m_get k m); reflexivity.
Qed.
End Sparse.
