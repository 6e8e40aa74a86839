(** Property C102, sparse form: powers of sparse float polynomials. *)

From Coq Require Import List NArith ZArith Reals Lia Lra Psatz Bool Arith Sorted.
From Coq Require Import ZifyBool ZifyNat ZifyN.
From Flocq Require Import Core Relative BinarySingleNaN.
From Verif Require Import Base Num Spec SpecFacts Laws Dense DenseFacts DenseMul Sparse SparseFacts SparseArith RealNum Floats FloatFacts FloatErr FloatEval FloatCoef Coef FloatMul FloatSparse P_FloatErr P_FloatPolyPow.
Import ListNotations.
Local Open Scope R_scope.

(** ** Specification *)

(** The exponents are among a, a + g, ..., a + (l - 1) g. *)
Definition steps {T} (a g : N) (l : nat) (m : bmap T) : Prop :=
  forall k v, In (k, v) m -> exists i, (i < l)%nat /\ k = (a + g * N.of_nat i)%N.
Definition sgrid {f} (q : Z) (m : bmap (flt f)) : Prop := forall k, exists z : Z, B2R (mcoef m k) = IZR z * bpow radix2 q.
Definition srpoly {f} (m : bmap (flt f)) : poly R_ring := fun d => B2R (mcoef m (N.of_nat d)).
Definition srpoly_abs {f} (m : bmap (flt f)) : poly R_ring := fun d => Rabs (B2R (mcoef m (N.of_nat d))).

Lemma one_le f : (Z.abs 1 <= 2 ^ fprec f)%Z.
Proof. destruct f; vm_compute; discriminate. Qed.
Lemma emin_le f : (SpecFloat.emin (fprec f) (femax f) <= 0)%Z.
Proof. destruct f; vm_compute; discriminate. Qed.

Section Mul.
Context (chk : bool) (f : fty) (powi : flt f -> N -> flt f).
Notation O := (float_num chk f powi).
Notation u := (uro f).
Notation emin := (SpecFloat.emin (fprec f) (femax f)).
Notation B := (@B2R (fprec f) (femax f)).
Notation Ba := (fun x : flt f => Rabs (B x)).
Notation keys := (map (@fst N (flt f))).
Notation get := (sget f).
Implicit Types a b m r terms lhs rhs : bmap (flt f).

(** The products that are added up for the coefficient of x^k. *)
Fixpoint sprods rhs lhs (k : N) : list (flt f * flt f) :=
  match rhs with
  | [] => []
  | (kr, v) :: rhs' =>
    (if is_zero O v then [] else match (if (k <? kr)%N then None else m_get (k - kr) lhs) with None => [] | Some l => [(v, l)] end) ++ sprods rhs' lhs k
  end.
Definition osum (t : option (flt f)) (L : list (flt f * flt f)) : option (flt f) :=
  fold_left (fun t xy => Some (match t with None => fmul (fst xy) (snd xy) | Some t => fadd t (fmul (fst xy) (snd xy)) end)) L t.

Lemma sparse_mul_sums lhs rhs : swf lhs -> (forall ka kb, In ka lhs -> In kb rhs -> (fst kb + fst ka <= USIZE_MAX)%N) ->
  forall terms, exists r, foldM (fun terms kv => if is_zero O (snd kv) then Ok terms else map_mul_row O (fst kv) (snd kv) terms lhs) terms rhs = Ok r /\
  forall k, m_get k r = osum (m_get k terms) (sprods rhs lhs k).
Proof.
  intros Hl. induction rhs as [|[kr v] rhs IH]; intros Hs terms; [exists terms; split; reflexivity|].
  assert (Hs' : forall ka kb, In ka lhs -> In kb rhs -> (fst kb + fst ka <= USIZE_MAX)%N) by (intros; apply Hs; [assumption|right; assumption]).
  cbn [foldM fst snd sprods]. destruct (is_zero O v); [apply (IH Hs')|].
  destruct (map_mul_row_get chk f powi kr v terms lhs Hl) as (t' & E' & H').
  { intros ka Hka. apply (Hs ka (kr, v) Hka). left. reflexivity. }
  rewrite E'. cbn [bind]. destruct (IH Hs' t') as (r & E & H). exists r. split; [exact E|]. intros k. rewrite H, H'.
  unfold osum. rewrite fold_left_app. f_equal.
  destruct (if (k <? kr)%N then None else m_get (k - kr) lhs) as [l|]; [|reflexivity]. cbn [fold_left fst snd]. destruct (m_get k terms); reflexivity.
Qed.

Lemma osum_some t L : osum (Some t) L = Some (dot t L).
Proof. revert t. induction L as [|xy L IH]; intros t; [reflexivity|]. unfold osum, dot. cbn [fold_left]. apply IH. Qed.

Definition oval (t : option (flt f)) : flt f := match t with Some v => v | None => fzero f end.

Lemma osum_finite L : is_finite (oval (osum None L)) = true -> forall x y, In (x, y) L -> is_finite x = true /\ is_finite y = true.
Proof.
  destruct L as [|[x y] L]; [intros _ ? ? []|]. change (osum None ((x, y) :: L)) with (osum (Some (fmul x y)) L). rewrite osum_some. cbn [oval].
  intros H x' y' [E|K]; [injection E as <- <-; apply fmul_operands, (dot_finite L), H|apply (dot_finite L (fmul x y) H), K].
Qed.

Lemma osum_err p q L : (emin <= p + q)%Z -> Forall (fun xy => mult p (B (fst xy)) /\ mult q (B (snd xy))) L ->
  is_finite (oval (osum None L)) = true ->
  mult (p + q) (B (oval (osum None L))) /\ appr u (length L) (B (oval (osum None L))) (dotR L) (dotA L) 0.
Proof.
  intros Hq HL Hf. destruct L as [|[x y] L].
  - split; [apply mult_0|]. cbn. pose proof (appr_exact u 0) as K. rewrite Rabs_R0 in K. exact K.
  - change (osum None ((x, y) :: L)) with (osum (Some (fmul x y)) L) in *. rewrite osum_some in *. cbn [oval] in *.
    pose proof (Forall_inv HL) as [Hx Hy]. cbn [fst snd] in Hx, Hy. apply Forall_inv_tail in HL.
    destruct (dot_finite _ _ Hf) as [F3 _].
    pose proof (mult_mul p q _ _ Hx Hy) as Hxy. destruct (rnd_mult (f := f) (p + q) _ Hq Hxy) as [M1 (e & He & E)].
    pose proof (fmul_round x y F3) as Em. change (round_mode mode_NE) with ZnearestE in Em. rewrite <- Em in M1, E.
    assert (Ap : appr u 1 (B (fmul x y)) (B x * B y) (Rabs (B x) * Rabs (B y)) 0).
    { rewrite E. pose proof (appr_mul u 0 (B x) (B x) (Rabs (B x)) 0 (B y) e 0 0 He) as K.
      rewrite Rabs_R0 in K. specialize (K (Rle_refl 0) (appr_exact u (B x))). rewrite Rplus_0_r in K.
      eapply appr_weaken; [apply uro_pos|apply Nat.le_refl| |exact K]. lra. }
    apply (dot_err p q L Hq HL 1 (fmul x y) _ _ Hf M1 ltac:(discriminate) Ap).
Qed.

Lemma sprods_length rhs lhs k : (length (sprods rhs lhs k) <= meeting f lhs rhs k)%nat.
Proof.
  induction rhs as [|[kr v] rhs IH]; [apply Nat.le_refl|]. cbn [sprods]. rewrite app_length, meets_cons. unfold meets. cbn [fst].
  destruct (is_zero O v); [cbn [length]; lia|]. destruct (k <? kr)%N; [cbn [length]; lia|]. destruct (m_get (k - kr) lhs); cbn [length]; lia.
Qed.

Lemma sprods_in rhs lhs k x y : In (x, y) (sprods rhs lhs k) -> exists kr kl, In (kr, x) rhs /\ m_get kl lhs = Some y /\ k = (kr + kl)%N.
Proof.
  induction rhs as [|[kr v] rhs IH]; [intros []|]. cbn [sprods]. intros H. apply in_app_or in H. destruct H as [H|H].
  - destruct (is_zero O v); [destruct H|]. destruct (N.ltb_spec k kr) as [K|K]; [destruct H|]. destruct (m_get (k - kr) lhs) as [l|] eqn:E; [|destruct H].
    destruct H as [H|[]]. injection H as <- <-. exists kr, (k - kr)%N. split; [left; reflexivity|]. split; [exact E|lia].
  - destruct (IH H) as (a1 & a2 & K1 & K2). exists a1, a2. split; [right; exact K1|exact K2].
Qed.

Lemma sprods_mem rhs lhs kr v kl l : In (kr, v) rhs -> is_zero O v = false -> m_get kl lhs = Some l -> In (v, l) (sprods rhs lhs (kr + kl)).
Proof.
  intros H Hz Hl. induction rhs as [|[k0 v0] rhs IH]; [destruct H|]. cbn [sprods]. apply in_or_app. destruct H as [E|H]; [|right; apply IH, H].
  injection E as -> ->. left. rewrite Hz. replace (kr + kl <? kr)%N with false by lia. replace (kr + kl - kr)%N with kl by lia. rewrite Hl. left. reflexivity.
Qed.

Lemma sprods_sum rhs lhs d : NoDup (keys rhs) -> dotR (sprods rhs lhs (N.of_nat d)) = @pmul R_ring (gpoly f B rhs) (gpoly f B lhs) d /\
  dotA (sprods rhs lhs (N.of_nat d)) = @pmul R_ring (gpoly f Ba rhs) (gpoly f Ba lhs) d.
Proof.
  assert (A0 : Rabs (B (fzero f)) = 0) by apply Rabs_R0.
  assert (AR : forall L M : list (flt f * flt f), dotR (L ++ M) = dotR L + dotR M /\ dotA (L ++ M) = dotA L + dotA M).
  { intros L M. unfold dotR, dotA. induction L as [|xy L [I1 I2]]; cbn [app fold_right]; [split; ring|].
    rewrite I1, I2. split; ring. }
  induction rhs as [|[kr v] rhs IH]; intros Hn.
  - rewrite !gpoly_nil_mul by (exact A0 || reflexivity). split; reflexivity.
  - cbn [map fst] in Hn. apply NoDup_cons_iff in Hn. destruct Hn as [Hi Hn]. destruct (IH Hn) as [I1 I2].
    rewrite (gpoly_cons_mul f powi B kr v rhs _ d eq_refl Hi), (gpoly_cons_mul f powi Ba kr v rhs _ d A0 Hi). cbn [sprods].
    match goal with |- dotR (?L ++ ?M) = _ /\ _ => destruct (AR L M) as [-> ->] end. rewrite I1, I2.
    generalize (@pmul R_ring (gpoly f B rhs) (gpoly f B lhs) d) (@pmul R_ring (gpoly f Ba rhs) (gpoly f Ba lhs) d). intros s1 s2.
    change R in (type of s1); change R in (type of s2).
    replace (d <? N.to_nat kr)%nat with (N.of_nat d <? kr)%N by lia.
    replace (gpoly f B lhs (d - N.to_nat kr)%nat) with (B (get lhs (N.of_nat d - kr))) by (unfold gpoly; do 2 f_equal; lia).
    replace (gpoly f Ba lhs (d - N.to_nat kr)%nat) with (Rabs (B (get lhs (N.of_nat d - kr)))) by (unfold gpoly; do 3 f_equal; lia).
    destruct (is_zero O v) eqn:Ez.
    + apply is_zero_B in Ez. destruct Ez as [Ez _]. rewrite Ez, Rabs_R0. destruct (N.of_nat d <? kr)%N; unfold dotR, dotA; cbn [fold_right]; split; ring.
    + destruct (N.of_nat d <? kr)%N; [unfold dotR, dotA; cbn [fold_right]; split; ring|]. unfold sget.
      destruct (m_get (N.of_nat d - kr) lhs) as [l|]; unfold dotR, dotA; cbn [fold_right fst snd]; [split; ring|]. rewrite A0. change (B (fzero f)) with 0. split; ring.
Qed.

Definition sfin m : Prop := forall k, is_finite (get m k) = true.
Definition kmax (n : N) m : Prop := forall k v, In (k, v) m -> (k <= n)%N.

Lemma smul_ok a b na nb : swf a -> swf b -> kmax na a -> kmax nb b -> (na + nb <= USIZE_MAX)%N ->
  exists r, sparse_mul O a b = Ok r /\ swf r /\ kmax (na + nb) r /\ forall k, m_get k r = osum None (sprods b a k).
Proof.
  intros Ha Hb Ka Kb Hn. destruct (sparse_mul_sums a b Ha) with (terms := @nil (N * flt f)) as (r & E & H).
  { intros [ka va] [kb vb] H1 H2. apply Ka in H1. apply Kb in H2. cbn [fst]. lia. }
  assert (W : swf r) by (eapply sparse_mul_wf; exact E).
  exists r. split; [exact E|]. split; [exact W|]. split; [|exact H].
  intros k v Hi. apply (sorted_in_get _ _ _ (proj1 W)) in Hi. rewrite H in Hi.
  destruct (sprods b a k) as [|[x y] L] eqn:Es; [discriminate|].
  destruct (sprods_in b a k x y) as (kr & kl & K1 & K2 & ->); [rewrite Es; left; reflexivity|].
  apply Kb in K1. apply m_get_in in K2. apply Ka in K2. lia.
Qed.

Lemma smul_steps a b r sa sb g la lb : swf r -> (forall k, m_get k r = osum None (sprods b a k)) -> steps sa g la a -> steps sb g lb b ->
  steps (sa + sb) g (la + lb - 1) r.
Proof.
  intros W H Sa Sb k v Hi. apply (sorted_in_get _ _ _ (proj1 W)) in Hi. rewrite H in Hi.
  destruct (sprods b a k) as [|[x y] L] eqn:Es; [discriminate|].
  destruct (sprods_in b a k x y) as (kr & kl & K1 & K2 & ->); [rewrite Es; left; reflexivity|].
  apply Sb in K1. apply m_get_in in K2. apply Sa in K2. destruct K1 as (i & Hi1 & ->). destruct K2 as (j & Hj1 & ->).
  exists (i + j)%nat. split; [lia|]. rewrite Nat2N.inj_add. ring.
Qed.

Lemma steps_length s g l m : swf m -> steps s g l m -> (length m <= l)%nat.
Proof.
  intros W H. rewrite <- (map_length fst m). pose proof (sorted_nodup m (proj1 W)) as Hn.
  assert (I : incl (keys m) (map (fun i => (s + g * N.of_nat i)%N) (seq 0 l))).
  { intros k Hk. apply in_map_iff in Hk. destruct Hk as ([k' v] & <- & Hk). destruct (H _ _ Hk) as (i & Hi & E). cbn [fst]. rewrite E.
    apply (in_map (fun i => (s + g * N.of_nat i)%N)). apply in_seq. lia. }
  apply NoDup_incl_length in I; [|exact Hn]. rewrite (map_length _ (seq 0 l)), seq_length in I. exact I.
Qed.

(** A finite product has finite factors. *)
Lemma smul_fin a b r : swf a -> swf b -> a <> [] -> (forall k, m_get k r = osum None (sprods b a k)) -> sfin r -> sfin b.
Proof.
  intros Wa Wb Na H Hr k. unfold sget. destruct (m_get k b) as [v|] eqn:Ev; [|reflexivity].
  destruct (is_zero O v) eqn:Ez; [apply is_zero_B in Ez; apply Ez|]. destruct a as [|[kl l] a']; [congruence|].
  assert (Hl : m_get kl ((kl, l) :: a') = Some l) by (cbn; rewrite N.eqb_refl; reflexivity).
  pose proof (sprods_mem b _ k v kl l (m_get_in _ _ _ Ev) Ez Hl) as M.
  specialize (Hr (k + kl)%N). unfold sget in Hr. rewrite H in Hr. apply (osum_finite _ Hr _ _ M).
Qed.

Lemma smul_apx p q (k k2 : nat) a b r P A Q A' : swf a -> swf b -> (forall k, m_get k r = osum None (sprods b a k)) -> sfin r -> (emin <= p + q)%Z ->
  (forall d, mult p (B (get a d))) -> (forall d, mult q (B (get b d))) ->
  apx (f := f) k (gpoly f B a) P A -> apx (f := f) k2 (gpoly f B b) Q A' ->
  (forall d, mult (p + q) (B (get r d))) /\
  apx (f := f) (Nat.min (length a) (length b) + (k + k2)) (gpoly f B r) (pmul P Q) (pmul A A').
Proof.
  intros Wa Wb H Hr Hq Ga Gb Xa Xb.
  assert (Hq' : (emin <= q + p)%Z) by (rewrite Z.add_comm; exact Hq).
  assert (F : forall d, Forall (fun xy => mult q (B (fst xy)) /\ mult p (B (snd xy))) (sprods b a d)).
  { intros d. apply Forall_forall. intros [x y] K. apply sprods_in in K. destruct K as (kr & kl & K1 & K2 & _). cbn [fst snd].
    apply (sorted_in_get _ _ _ (proj1 Wb)) in K1. specialize (Gb kr). specialize (Ga kl). unfold sget in Ga, Gb. rewrite K1 in Gb. rewrite K2 in Ga. split; assumption. }
  assert (G : forall d, mult (p + q) (B (get r d)) /\ appr u (length (sprods b a d)) (B (get r d)) (dotR (sprods b a d)) (dotA (sprods b a d)) 0).
  { intros d. specialize (Hr d). unfold sget in *. rewrite H in *. rewrite (Z.add_comm p q). apply (osum_err q p _ Hq' (F d) Hr). }
  split; [intros d; apply G|].
  apply (apx_trans _ _ _ (pmul (gpoly f B a) (gpoly f B b)) _ _ (pmul (gpoly f Ba a) (gpoly f Ba b))).
  - intros d. destruct (sprods_sum b a d (sorted_nodup b (proj1 Wb))) as [S1 S2].
    destruct (G (N.of_nat d)) as [_ [_ E]]. rewrite S1, S2, Rplus_0_r in E. rewrite (@pmul_comm R_ring (gpoly f B a)), (@pmul_comm R_ring (gpoly f Ba a)).
    eapply Rle_trans; [exact E|]. apply Rmult_le_compat_r; [apply pmul_pos; intros i; apply Rabs_pos|]. apply Rplus_le_compat_r, Rle_pow; [pose proof (@uro_pos f); lra|].
    eapply Nat.le_trans; [apply sprods_length|]. apply (meeting_le f powi), Wb.
  - apply apx_mul; assumption.
  - intros d. rewrite pow_add, <- pmul_scal. apply (pmul_abs_le (gpoly f B a) (gpoly f B b)); intros i; eapply appr_abs; [apply Xa|apply Xb].
Qed.

Lemma smul_nil b r : sparse_mul O [] b = Ok r -> r = [].
Proof.
  unfold sparse_mul. generalize (eq_refl : @nil (N * flt f) = []). generalize (@nil (N * flt f)) at 1 4. induction b as [|[k v] b IH]; intros t Ht H; cbn [foldM] in H.
  - congruence.
  - destruct (is_zero O (snd (k, v))); cbn [bind map_mul_row foldM] in H; apply (IH t Ht H).
Qed.
Lemma spow_nil fuel : forall e r, (1 <= e)%N -> sparse_pow O fuel [] e = Ok r -> r = [].
Proof.
  induction fuel as [|fuel IH]; intros e r He H; [discriminate|]. cbn [sparse_pow] in H. replace (e =? 0)%N with false in H by lia.
  destruct (N.eqb_spec e 1) as [E1|E1]; [congruence|]. destruct (N.eqb_spec e 2) as [E2|E2]; [apply (smul_nil _ _ H)|].
  destruct (e mod 2 =? 0)%N; apply bind_ok in H; destruct H as (h & Hh & H).
  - apply IH in Hh; [subst h; apply (IH 2%N); [lia|exact H]|]. pose proof (N.div_mod e 2 ltac:(lia)). assert (e mod 2 < 2)%N by (apply N.mod_lt; lia). lia.
  - apply (smul_nil _ _ H).
Qed.

Lemma spow_apx fuel : forall p e r q n s g l, swf p -> kmax n p -> (n * e <= USIZE_MAX)%N -> (1 <= l)%nat -> steps s g l p ->
  sparse_pow O fuel p e = Ok r ->
  swf r /\ kmax (n * e) r /\ steps (s * e) g ((l - 1) * N.to_nat e + 1) r /\
  (sfin r -> (forall d, mult q (B (get p d))) -> (emin <= Z.of_N e * q)%Z ->
   (forall d, mult (Z.of_N e * q) (B (get r d))) /\
   apx (f := f) (pow_roundings l (N.to_nat e)) (gpoly f B r) (ppow (gpoly f B p) (N.to_nat e)) (ppow (gpoly f Ba p) (N.to_nat e))).
Proof.
  pose proof (emin_le f) as He0.
  induction fuel as [|fuel IH]; intros p e r q n s g l Wp Kp Hn Hl Sp H; [discriminate|].
  assert (Hp0 : apx (f := f) 0 (gpoly f B p) (gpoly f B p) (gpoly f Ba p)) by (intros d; apply appr_exact).
  cbn [sparse_pow] in H. destruct (N.eqb_spec e 0) as [->|E0].
  { assert (r = [(0%N, one O)]) by congruence. subst r. split; [split; repeat constructor; vm_compute; discriminate|].
    split; [intros k v [E|[]]; injection E as <- <-; lia|]. split; [intros k v [E|[]]; injection E as <- <-; exists 0%nat; split; [lia|cbn; lia]|].
    intros _ _ _.
    assert (V : forall d, B (get [(0%N, one O)] d) = if (d =? 0)%N then 1 else 0).
    { intros d. unfold sget. cbn [m_get]. destruct (d =? 0)%N; [|reflexivity]. change (B (f_of_Z f 1) = 1). apply (f_of_Z_small f 1%Z), one_le. }
    split.
    - intros d. rewrite V. destruct (d =? 0)%N; [exists 1%Z; cbn; ring|apply mult_0].
    - intros d. unfold gpoly. rewrite V. cbn [N.to_nat ppow]. unfold pow_roundings, pone. cbn [Nat.mul Nat.sub Nat.add].
      destruct d as [|d]; cbn; [pose proof (appr_exact u 1) as K|pose proof (appr_exact u 0) as K]; [rewrite Rabs_R1 in K|rewrite Rabs_R0 in K]; exact K. }
  destruct (N.eqb_spec e 1) as [->|E1].
  { assert (r = p) by congruence. subst r. rewrite !N.mul_1_r. split; [exact Wp|]. split; [exact Kp|]. change (N.to_nat 1) with 1%nat.
    split; [intros k v Hi; destruct (Sp k v Hi) as (i & Hi1 & Hi2); exists i; split; [lia|exact Hi2]|].
    intros _ Gp _. rewrite Z.mul_1_l. split; [exact Gp|]. apply (apx_le f 0); [lia|].
    eapply apx_ext; [apply peq_sym, ppow_1|apply peq_sym, ppow_1|exact Hp0]. }
  assert (SQ : forall h j r, sparse_mul O h h = Ok r -> (1 <= j)%nat -> (n * N.of_nat (j + j) <= USIZE_MAX)%N ->
    swf h /\ kmax (n * N.of_nat j) h /\ steps (s * N.of_nat j) g ((l - 1) * j + 1) h /\
    (sfin h -> (forall d, mult q (B (get p d))) -> (emin <= Z.of_nat j * q)%Z ->
      (forall d, mult (Z.of_nat j * q) (B (get h d))) /\ apx (f := f) (pow_roundings l j) (gpoly f B h) (ppow (gpoly f B p) j) (ppow (gpoly f Ba p) j)) ->
    swf r /\ kmax (n * N.of_nat (j + j)) r /\ steps (s * N.of_nat (j + j)) g ((l - 1) * (j + j) + 1) r /\
    (sfin r -> (forall d, mult q (B (get p d))) -> (emin <= Z.of_nat (j + j) * q)%Z -> (forall d, mult (Z.of_nat (j + j) * q) (B (get r d))) /\
    apx (f := f) (pow_roundings l (j + j)) (gpoly f B r) (ppow (gpoly f B p) (j + j)) (ppow (gpoly f Ba p) (j + j)))).
  { clear r H. intros h j r H Hj Hn2 (Wh & Kh & Sh & G).
    destruct (smul_ok h h _ _ Wh Wh Kh Kh ltac:(lia)) as (r' & E & Wr & Kr & Hr). assert (r' = r) by congruence. subst r'.
    split; [exact Wr|]. split; [intros k v Hi; apply Kr in Hi; lia|].
    pose proof (smul_steps h h r _ _ _ _ _ Wr Hr Sh Sh) as Sr.
    split. { intros k v Hi. destruct (Sr k v Hi) as (i & Hi1 & Hi2). exists i. split; [lia|]. rewrite Hi2. lia. }
    intros Fr Gp Hq. 
    assert (Fh : sfin h). { destruct h as [|kv h']; [intros k; reflexivity|]. apply (smul_fin (kv :: h') (kv :: h') r Wh Wh ltac:(discriminate) Hr Fr). }
    assert (Hqj : (emin <= Z.of_nat j * q)%Z) by (destruct (Z.le_gt_cases 0 q); nia).
    destruct (G Fh Gp Hqj) as [G1 G2].
    assert (Eq : (Z.of_nat (j + j) * q = Z.of_nat j * q + Z.of_nat j * q)%Z) by lia. rewrite Eq in *.
    destruct (smul_apx _ _ _ _ h h r _ _ _ _ Wh Wh Hr Fr Hq G1 G1 G2 G2) as [M1 M2]. split; [exact M1|].
    pose proof (steps_length _ _ _ h Wh Sh) as Lh.
    eapply apx_le; [eapply Nat.le_trans; [|apply (roundings_double l j Hj)]|].
    2:{ eapply apx_ext; [apply peq_sym, ppow_add|apply peq_sym, ppow_add|exact M2]. }
    apply Nat.add_le_mono_r. apply Nat.min_glb; lia. }
  destruct (N.eqb_spec e 2) as [->|E2].
  { change (N.to_nat 2) with (1 + 1)%nat. change (Z.of_N 2) with (Z.of_nat (1 + 1)). change 2%N with (N.of_nat (1 + 1)) in *.
    apply (SQ p 1%nat r H); [lia|exact Hn|]. change (N.of_nat 1) with 1%N. rewrite !N.mul_1_r. split; [exact Wp|]. split; [exact Kp|].
    split; [intros k v Hi; destruct (Sp k v Hi) as (i & Hi1 & Hi2); exists i; split; [lia|exact Hi2]|].
    intros _ Gp _. rewrite Z.mul_1_l. split; [exact Gp|].
    apply (apx_le f 0); [lia|]. eapply apx_ext; [apply peq_sym, ppow_1|apply peq_sym, ppow_1|exact Hp0]. }
  destruct (N.eqb_spec (e mod 2) 0) as [Em|Em]; apply bind_ok in H; destruct H as (h & Hh & H).
  - assert (He : N.to_nat e = (N.to_nat (e / 2) + N.to_nat (e / 2))%nat) by (pose proof (N.div_mod e 2 ltac:(lia)); lia).
    set (j := N.to_nat (e / 2)) in *. assert (Ej : (e / 2 = N.of_nat j)%N) by lia. assert (Ee : e = N.of_nat (j + j)) by lia.
    assert (Hj : (1 <= j)%nat) by lia. rewrite Ej in Hh. rewrite Ee in *. clear Em E0 E1 E2.
    pose proof (IH p (N.of_nat j) h q n s g l Wp Kp ltac:(nia) Hl Sp Hh) as IHh. rewrite Nat2N.id, nat_N_Z in IHh. rewrite Nat2N.id, nat_N_Z.
    destruct fuel as [|fuel']; [discriminate|]. cbn [sparse_pow] in H.
    change ((2 =? 0)%N) with false in H. change ((2 =? 1)%N) with false in H. change ((2 =? 2)%N) with true in H. cbv iota in H.
    apply (SQ h j r H Hj Hn IHh).
  - assert (He : N.to_nat e = S (N.to_nat (e - 1))) by lia.
    assert (He2 : (Z.of_N e * q = q + Z.of_N (e - 1) * q)%Z) by nia.
    destruct (IH p (e - 1)%N h q n s g l Wp Kp ltac:(nia) Hl Sp Hh) as (Wh & Kh & Sh & G).
    destruct (smul_ok p h _ _ Wp Wh Kp Kh ltac:(nia)) as (r' & E & Wr & Kr & Hr). assert (r' = r) by congruence. subst r'.
    split; [exact Wr|]. split; [intros k v Hi; apply Kr in Hi; nia|].
    pose proof (smul_steps p h r _ _ _ _ _ Wr Hr Sp Sh) as Sr.
    split. { intros k v Hi. destruct (Sr k v Hi) as (i & Hi1 & Hi2). exists i. split; [nia|]. rewrite Hi2. nia. }
    intros Fr Gp Hq.
    assert (Fh : sfin h). 
    { destruct p as [|kv p']; [apply spow_nil in Hh; [subst h; intros k; reflexivity|lia]|]. apply (smul_fin (kv :: p') h r Wp Wh ltac:(discriminate) Hr Fr). }
    assert (Hqj : (emin <= Z.of_N (e - 1) * q)%Z) by (destruct (Z.le_gt_cases 0 q); nia).
    destruct (G Fh Gp Hqj) as [G1 G2]. rewrite He2 in *.
    destruct (smul_apx _ _ _ _ p h r _ _ _ _ Wp Wh Hr Fr Hq Gp G1 Hp0 G2) as [M1 M2].
    split; [exact M1|]. rewrite He. cbn [ppow]. eapply apx_le; [|exact M2].
    pose proof (steps_length _ _ _ p Wp Sp) as Lp.
    pose proof (roundings_succ l (N.to_nat (e - 1)) ltac:(lia)) as R1. replace (l =? 0)%nat with false in R1 by lia. lia.
Qed.

(** Powers exist while the exponents fit. *)
Lemma spow_returns fuel : forall p e n, swf p -> kmax n p -> (n * e <= USIZE_MAX)%N -> (pow_fuel e <= fuel)%nat -> exists r, sparse_pow O fuel p e = Ok r.
Proof.
  intros p e n Wp Kp Hn Hf. assert (NF : sparse_pow O fuel p e <> Fuel) by (apply sparse_pow_prompt; [split; intros; discriminate|exact Hf]).
  clear Hf. revert e Hn NF. induction fuel as [|fuel IH]; intros e Hn NF; [exfalso; apply NF; reflexivity|].
  cbn [sparse_pow] in *. destruct (N.eqb_spec e 0); [eauto|]. destruct (N.eqb_spec e 1); [eauto|].
  destruct (N.eqb_spec e 2) as [->|]; [destruct (smul_ok p p n n Wp Wp Kp Kp ltac:(lia)) as (r & Hr & _); eauto|].
  assert (ST : steps 0 1 (S (N.to_nat n)) p). { intros k v Hi. apply Kp in Hi. exists (N.to_nat k). split; lia. }
  destruct (N.eqb_spec (e mod 2) 0) as [Em|Em].
  - assert (H2 : (n * (e / 2) + n * (e / 2) <= USIZE_MAX)%N).
    { replace (n * (e / 2) + n * (e / 2))%N with (n * (2 * (e / 2)))%N by ring. eapply N.le_trans; [|exact Hn]. apply N.mul_le_mono_l, N.mul_div_le. lia. }
    destruct (IH (e / 2)%N) as (h & Hh).
    { lia. }
    { intros E. apply NF. rewrite E. reflexivity. }
    rewrite Hh in *. cbn [bind] in *. destruct fuel as [|fuel']; [discriminate|]. cbn [sparse_pow].
    destruct (spow_apx _ p (e / 2)%N h 0%Z n 0%N 1%N (S (N.to_nat n)) Wp Kp ltac:(lia) ltac:(lia) ST Hh) as (Wh & Kh & _).
    change ((2 =? 0)%N) with false. change ((2 =? 1)%N) with false. change ((2 =? 2)%N) with true. cbv iota.
    destruct (smul_ok h h _ _ Wh Wh Kh Kh ltac:(lia)) as (r & Hr & _). eauto.
  - destruct (IH (e - 1)%N) as (h & Hh).
    { nia. }
    { intros E. apply NF. rewrite E. reflexivity. }
    rewrite Hh in *. cbn [bind] in *.
    destruct (spow_apx _ p (e - 1)%N h 0%Z n 0%N 1%N (S (N.to_nat n)) Wp Kp ltac:(nia) ltac:(lia) ST Hh) as (Wh & Kh & _).
    destruct (smul_ok p h _ _ Wp Wh Kp Kh ltac:(nia)) as (r & Hr & _). eauto.
Qed.
End Mul.

(** ** C102 *)

(** The power of a sparse float polynomial exists while its exponents fit a usize.  If its coefficients are finite, they
    have the error bound of the dense form, where l is the length of an arithmetic progression with all exponents. *)
Theorem C102_sparse : forall chk f powi fuel (p : bmap (flt f)) (e : N) (q : Z) (s g : N) (l : nat), let O := float_num chk f powi in
  swf p -> (forall k v, In (k, v) p -> (k * e <= USIZE_MAX)%N) -> (pow_fuel e <= fuel)%nat -> (1 <= l)%nat -> steps s g l p ->
  exists r, sparse_pow O fuel p e = Ok r /\ steps (s * e) g ((l - 1) * N.to_nat e + 1) r /\
  ((forall k, is_finite (mcoef r k) = true) -> sgrid q p -> (SpecFloat.emin (fprec f) (femax f) <= Z.of_N e * q)%Z ->
   forall d, Rabs (B2R (mcoef r (N.of_nat d)) - ppow (srpoly p) (N.to_nat e) d) <=
     ((1 + uro f) ^ pow_roundings l (N.to_nat e) - 1) * ppow (srpoly_abs p) (N.to_nat e) d).
Proof.
  intros chk f powi fuel p e q s g l O Wp Kp Hf Hl Sp.
  set (n := if (e =? 0)%N then USIZE_MAX else (USIZE_MAX / e)%N).
  assert (Hn : (n * e <= USIZE_MAX)%N).
  { unfold n. destruct (N.eqb_spec e 0) as [->|E0]; [rewrite N.mul_0_r; apply N.le_0_l|]. rewrite N.mul_comm. apply N.mul_div_le, E0. }
  assert (Kn : kmax f n p).
  { intros k v Hi. unfold n. destruct (N.eqb_spec e 0) as [E0|E0].
    - destruct Wp as [_ W]. rewrite Forall_forall in W. apply (W _ Hi).
    - apply N.div_le_lower_bound; [exact E0|]. rewrite N.mul_comm. apply (Kp k v Hi). }
  destruct (spow_returns chk f powi fuel p e n Wp Kn Hn Hf) as (r & Hr). exists r. split; [exact Hr|].
  destruct (spow_apx chk f powi fuel p e r q n s g l Wp Kn Hn Hl Sp Hr) as (_ & _ & Sr & G). split; [exact Sr|].
  intros Fr Gp Hq d. destruct (G Fr Gp Hq) as [_ K]. destruct (K d) as [_ E]. rewrite Rplus_0_r in E. exact E.
Qed.

(** Two terms, however far apart their exponents: the bound of a linear polynomial. *)
Theorem C102_two_terms : forall chk f powi fuel (p : bmap (flt f)) (e : N) (q : Z), let O := float_num chk f powi in
  swf p -> (length p <= 2)%nat -> (forall k v, In (k, v) p -> (k * e <= USIZE_MAX)%N) -> (pow_fuel e <= fuel)%nat ->
  exists r, sparse_pow O fuel p e = Ok r /\ (length r <= N.to_nat e + 1)%nat /\
  ((forall k, is_finite (mcoef r k) = true) -> sgrid q p -> (SpecFloat.emin (fprec f) (femax f) <= Z.of_N e * q)%Z ->
   forall d, Rabs (B2R (mcoef r (N.of_nat d)) - ppow (srpoly p) (N.to_nat e) d) <=
     ((1 + uro f) ^ (N.to_nat e * Nat.log2 (N.to_nat e) + (N.to_nat e - 1)) - 1) * ppow (srpoly_abs p) (N.to_nat e) d).
Proof.
  intros chk f powi fuel p e q O Wp Lp Kp Hf.
  assert (ST : exists s g, steps s g 2 p).
  { destruct p as [|[k1 v1] [|[k2 v2] [|? ?]]]; cbn [length] in Lp; [exists 0%N, 0%N; intros k v []| | |lia].
    - exists k1, 0%N. intros k v [E|[]]. injection E as <- <-. exists 0%nat. split; [lia|lia].
    - destruct Wp as [W _]. inversion W as [|? ? _ F]; subst. apply Forall_inv in F. unfold key_lt in F. cbn [fst] in F.
      exists k1, (k2 - k1)%N. intros k v [E|[E|[]]]; injection E as <- <-; [exists 0%nat|exists 1%nat]; split; lia. }
  destruct ST as (s & g & ST). destruct (C102_sparse chk f powi fuel p e q s g 2 Wp Kp Hf ltac:(lia) ST) as (r & Hr & Sr & G).
  exists r. split; [exact Hr|]. split.
  - destruct (N.eq_dec e 0) as [->|E0].
    + destruct fuel as [|fuel]; [discriminate|]. change (Ok [(0%N, one O)] = Ok r) in Hr. assert (L1 : length r = 1%nat) by (apply (f_equal (fun x => match x with Ok r => r | _ => [] end)) in Hr; cbv iota beta in Hr; rewrite <- Hr; reflexivity). lia.
    + assert (Wr : swf r).
      { set (n := (USIZE_MAX / e)%N). refine (proj1 (spow_apx chk f powi fuel p e r q n s g 2 Wp _ _ ltac:(lia) ST Hr)).
        - intros k v Hi. apply N.div_le_lower_bound; [exact E0|]. rewrite N.mul_comm. apply (Kp k v Hi).
        - unfold n. rewrite N.mul_comm. apply N.mul_div_le, E0. }
      pose proof (steps_length f powi _ _ _ r Wr Sr). lia.
  - intros Fr Gp Hq d. pose proof (G Fr Gp Hq d) as K. unfold pow_roundings in K. replace (N.to_nat e * Nat.log2 (N.to_nat e) * (2 - 1))%nat with (N.to_nat e * Nat.log2 (N.to_nat e))%nat in K by lia. exact K.
Qed.

(** (0.1x^1000000000000 + 1)^5 in f32. *)
Example C102_sparse_case : forall powi, let O := float_num true F32 powi in
  let t := fdiv (f_of_Z F32 1) (f_of_Z F32 10) in let p := [(0%N, f_of_Z F32 1); (1000000000000%N, t)] in
  swf p /\ (forall k v, In (k, v) p -> (k * 5 <= USIZE_MAX)%N) /\ sgrid (-27) p /\ (SpecFloat.emin (fprec F32) (femax F32) <= 5 * -27)%Z /\
  rmap (map (fun kv => (fst kv, B2SF (snd kv)))) (sparse_pow O (pow_fuel 5) p 5) = Ok
    [(0%N, SpecFloat.S754_finite false 8388608 (-23)); (1000000000000%N, SpecFloat.S754_finite false 8388608 (-24));
     (2000000000000%N, SpecFloat.S754_finite false 13421774 (-27)); (3000000000000%N, SpecFloat.S754_finite false 10737419 (-30));
     (4000000000000%N, SpecFloat.S754_finite false 8589935 (-34)); (5000000000000%N, SpecFloat.S754_finite false 10995118 (-40))].
Proof.
  intros powi O t p. split; [split; repeat constructor; vm_compute; discriminate|].
  split; [intros k v [E|[E|[]]]; injection E as <- <-; vm_compute; discriminate|]. split; [|split; [vm_compute; discriminate|]].
  - assert (St : B2SF t = SpecFloat.S754_finite false 13421773 (-27)) by (vm_compute; reflexivity).
    assert (S1 : B2R (f_of_Z F32 1) = 1) by (apply (f_of_Z_small F32 1%Z); vm_compute; discriminate).
    intros k. unfold mcoef, p. cbn [m_get]. destruct (k =? 0)%N; [|destruct (k =? 1000000000000)%N].
    + exists (2 ^ 27)%Z. rewrite S1. change (2 ^ 27)%Z with (radix2 ^ 27)%Z. rewrite IZR_Zpower by lia. rewrite <- bpow_plus. reflexivity.
    + exists 13421773%Z. rewrite <- SF2R_B2SF, St. reflexivity.
    + exists 0%Z. rewrite Rmult_0_l. reflexivity.
  - vm_compute. reflexivity.
Qed.

Print Assumptions C102_sparse.
Print Assumptions C102_two_terms.
