(** Property C61: a bound on the magnitudes rules out overflow panics. *)

From Coq Require Import List NArith ZArith Lia Bool Arith.
From Coq Require Import ZifyBool ZifyNat ZifyN.
From Verif Require Import Base Num Spec SpecFacts Laws Terms Dense DenseFacts DenseArith DenseMul DenseMulInt DenseCalc.
From Verif Require Import Sparse SparseFacts SparseArith SparseCalc Mono Bino Trino ArrPoly FixedFacts.
From Verif Require Import BoundedZ BoundedPow P_Dense1 P_Sparse1 P_Fixed1.
Import ListNotations.
Local Open Scope Z_scope.

(** The polynomial with every coefficient replaced by its absolute value. *)
Definition magnitudes (p : poly Z_ring) : poly Z_ring := fun d => Z.abs (p d).

Section Ints.
Variable t : ity.
Notation O := (int_num true t).
Notation L := (checked_lawful t).

Lemma int_fit z : Z.abs z <= imax t -> imin t = - imax t - 1 \/ 0 <= z -> in_range t z = true.
Proof. intros H. apply (in_range_abs t z (imax t) H). lia. Qed.

Lemma pow_in_range (x : int t) m n : (m <= n)%nat -> in_range t (@rpow Z_ring (ival x) n) = true ->
  in_range t (@rpow Z_ring (ival x) m) = true.
Proof.
  intros Hm H. pose proof (ival_ok x) as Hx. apply in_range_iff in Hx. pose proof (imin_max t) as Hmm.
  assert (Hs : forall k, imin t = - imax t - 1 \/ 0 <= @rpow Z_ring (ival x) k).
  { intros k. destruct (imin_cases t) as [K|K]; [auto|right]. specialize (K x).
    induction k as [|k IH]; cbn [rpow r1 rmul Z_ring]; [lia|]. cbn [car Z_ring] in *. nia. }
  assert (Ha : forall k, Z.abs (@rpow Z_ring (ival x) k) = @rpow Z_ring (Z.abs (ival x)) k) by (intros; apply Zabs_rpow).
  destruct (Nat.eq_dec m n) as [->|Hne]; [exact H|].
  apply int_fit; [|apply Hs]. rewrite Ha. apply in_range_iff in H.
  assert (Hn : @rpow Z_ring (Z.abs (ival x)) n <= imax t + 1).
  { rewrite <- Ha. destruct (Hs n) as [K|K]; cbn [car Z_ring] in *; lia. }
  set (y := Z.abs (ival x)) in *. assert (0 <= y) by lia.
  destruct (Z.le_gt_cases y 1).
  - assert (K : forall k, 0 <= @rpow Z_ring y k <= 1).
    { intros k. induction k as [|k IH]; cbn [rpow r1 rmul Z_ring]; [lia|]. cbn [car Z_ring] in *. nia. }
    specialize (K m). cbn [car Z_ring] in *. lia.
  - assert (K : forall k, 1 <= @rpow Z_ring y k).
    { intros k. induction k as [|k IH]; cbn [rpow r1 rmul Z_ring]; [lia|]. cbn [car Z_ring] in *. nia. }
    assert (G : forall j, @rpow Z_ring y m * 2 <= @rpow Z_ring y (S j + m)).
    { intros j. induction j as [|j IH].
      - cbn [plus rpow rmul Z_ring]. specialize (K m). cbn [car Z_ring] in *. nia.
      - change (S (S j) + m)%nat with (S (S j + m)). cbn [rpow rmul Z_ring]. specialize (K (S j + m)%nat). specialize (K : 1 <= _).
        cbn [car Z_ring] in *. nia. }
    specialize (G (n - m - 1)%nat). replace (S (n - m - 1) + m)%nat with n in G by lia. specialize (K m). cbn [car Z_ring] in *. lia.
Qed.

Lemma rpow_mul (x : Z) a b : @rpow Z_ring x (a + b) = @rpow Z_ring x a * @rpow Z_ring x b.
Proof. induction a as [|a IH]; cbn [plus rpow rmul r1 Z_ring]; [cbn [car Z_ring]; lia|]. rewrite IH. cbn [rmul Z_ring car]. lia. Qed.

Lemma ipow_loop_returns (x : int t) e : forall base acc k m, (1 <= m)%nat ->
  ival base = @rpow Z_ring (ival x) m -> ival acc = @rpow Z_ring (ival x) k ->
  in_range t (@rpow Z_ring (ival x) (k + m * Pos.to_nat e)) = true -> exists r, ipow_loop true t e base acc = Ok r.
Proof.
  induction e as [e IH|e IH|]; intros base acc k m Hm1 Hb Ha H; cbn [ipow_loop]; rewrite ?Pos2Nat.inj_xI, ?Pos2Nat.inj_xO in H; try pose proof (Pos2Nat.is_pos e).
  - assert (Ka : in_range t (ival acc * ival base) = true).
    { rewrite Ha, Hb, <- rpow_mul. eapply pow_in_range; [|exact H]. nia. }
    assert (Kb : in_range t (ival base * ival base) = true).
    { rewrite Hb, <- rpow_mul. eapply pow_in_range; [|exact H]. nia. }
    rewrite (arith_in_range true t _ Ka), (arith_in_range true t _ Kb). cbn [bind].
    apply (IH _ _ (k + m)%nat (m + m)%nat); [lia| | |].
    + rewrite ival_mk_int by exact Kb. rewrite Hb, <- rpow_mul. reflexivity.
    + rewrite ival_mk_int by exact Ka. rewrite Ha, Hb, <- rpow_mul. reflexivity.
    + replace (k + m + (m + m) * Pos.to_nat e)%nat with (k + m * S (2 * Pos.to_nat e))%nat by lia. exact H.
  - assert (Kb : in_range t (ival base * ival base) = true).
    { rewrite Hb, <- rpow_mul. eapply pow_in_range; [|exact H]. nia. }
    rewrite (arith_in_range true t _ Kb). cbn [bind].
    apply (IH _ _ k (m + m)%nat); [lia| |exact Ha|].
    + rewrite ival_mk_int by exact Kb. rewrite Hb, <- rpow_mul. reflexivity.
    + replace (k + (m + m) * Pos.to_nat e)%nat with (k + m * (2 * Pos.to_nat e))%nat by lia. exact H.
  - rewrite Ha, Hb, <- rpow_mul. rewrite arith_in_range; [eauto|].
    replace (k + m)%nat with (k + m * Pos.to_nat 1)%nat by lia. exact H.
Qed.

Lemma upow_returns (x : int t) e : (e < 2 ^ 32)%N ->
  (exists r, upow O x e = Ok r) <-> in_range t (@rpow Z_ring (ival x) (N.to_nat e)) = true.
Proof.
  intros He. split.
  - intros (r & Hr). rewrite <- (lw_upow _ _ _ L _ _ _ He Hr). apply ival_ok.
  - intros H. cbn [upow int_num]. unfold iupow, ipow. rewrite N.mod_small by exact He. destruct e as [|p]; [eauto|].
    apply (ipow_loop_returns x p x (mk_int t 1) 0 1).
    + lia.
    + cbn. lia.
    + apply ival_mk_int. apply in_range_iff. pose proof (imin_max t). cbn. lia.
    + replace (0 + 1 * Pos.to_nat p)%nat with (N.to_nat (Npos p)) by lia. exact H.
Qed.

End Ints.

(** Multiplication: the sums of the absolute values of the products. *)
Theorem C61_mul : forall t,
  (forall a b : list (int t), let ca := dcoef Z_ring ival a in let cb := dcoef Z_ring ival b in
     vec_ok (int_num true t) a -> vec_ok (int_num true t) b -> product_fits (int_num true t) Z_ring ca cb ->
     ~ (peq ca pzero /\ peq cb pzero) -> (forall d, pmul (magnitudes ca) (magnitudes cb) d <= imax t) ->
     exists r, dense_mul (int_num true t) a b = Ok r /\ peq (dcoef Z_ring ival r) (pmul ca cb)) /\
  (forall a b : bmap (int t), let ca := scoef Z_ring ival a in let cb := scoef Z_ring ival b in
     swf a -> swf b -> (forall k v k' v', In (k, v) a -> In (k', v') b -> (k + k' <= USIZE_MAX)%N) ->
     (forall d, pmul (magnitudes ca) (magnitudes cb) d <= imax t) ->
     exists r, sparse_mul (int_num true t) a b = Ok r /\ peq (scoef Z_ring ival r) (pmul ca cb)).
Proof.
  intros t. split; intros a b ca cb.
  - intros Ha Hb Hf Hn H. destruct (C08_dense_mul_int_checked_returns t a b Ha Hb Hf Hn H) as (r & Hr).
    exists r. split; [exact Hr|]. apply (dense_mul_coef _ _ _ (checked_lawful t) a b r Ha Hb Hr).
  - intros Ha Hb Hk H.
    destruct (sparse_mul_fit (int_num true t) ival (checked_lawful t) _ (checked_fits t) (imax t) _ (int_fit t) (imin_cases t)
                a b Ha Hb) as (r & Hr); [|exact H|].
    + intros k v Hi _ [k' v'] Hi'. cbn [fst]. rewrite N.add_comm. eapply Hk; eassumption.
    + exists r. split; [exact Hr|].
      apply (sparse_mul_spec _ _ _ (checked_lawful t) a b r Ha Hb (or_introl eq_refl) Hr).
Qed.

(** Powers: the sum of the absolute values of the coefficients, to that power. *)
Theorem C61_pow : forall t,
  (forall (p : list (int t)) e n s fuel, let c := dcoef Z_ring ival p in
     vec_ok (int_num true t) p -> is_degree c (Some n) -> (N.of_nat n * e + 1 <= n_max_len (int_num true t))%N ->
     @is_value Z_ring (magnitudes c) 1 s -> s ^ Z.of_N e <= imax t -> (1 + 2 * N.to_nat (N.size e) <= fuel)%nat ->
     exists r, dense_pow (int_num true t) fuel p e = Ok r /\ peq (dcoef Z_ring ival r) (ppow c (N.to_nat e))) /\
  (forall (p : bmap (int t)) e n s fuel, let c := scoef Z_ring ival p in
     swf p -> Forall (fun kv => (fst kv <= n)%N) p -> (n * e <= USIZE_MAX)%N ->
     @is_value Z_ring (magnitudes c) 1 s -> 1 <= s -> s ^ Z.of_N e <= imax t -> (1 + 2 * N.to_nat (N.size e) <= fuel)%nat ->
     exists r, sparse_pow (int_num true t) fuel p e = Ok r /\ peq (scoef Z_ring ival r) (ppow c (N.to_nat e))) /\
  (forall (m : mono (int t)) e, (e < 2 ^ 32)%N ->
     (exists r, mono_pow (int_num true t) m e = Ok r) <->
     in_range t (ival (mcoef m) ^ Z.of_N e) = true /\ (mdeg m * e <= USIZE_MAX)%N).
Proof.
  intros t. split; [|split].
  - intros p e n s fuel c Hp Hd Hc Hs HB Hf.
    pose proof (dense_degree_spec (int_num true t) Z_ring ival (checked_lawful t) p) as Da.
    pose proof (is_degree_unique _ _ _ Hd Da) as E.
    rewrite dense_degree_strip in E. destruct (strip (int_num true t) p) as [|x q] eqn:Es; [discriminate|].
    injection E as E.
    destruct (dense_pow_fit (int_num true t) ival (checked_lawful t) _ (checked_fits t) (imax t) _ (int_fit t) (imin_cases t)
                fuel p e s) as (r & Hr & _); auto.
    + rewrite Es. discriminate.
    + rewrite Es. unfold len in *. simpl length. rewrite Nnat.Nat2N.id in E. subst n.
      replace (N.of_nat (S (length q)) - 1)%N with (N.of_nat (length q)) by lia. exact Hc.
    + exists r. split; [exact Hr|]. eapply (C10_dense_pow _ _ _ _ (checked_lawful t)); [|exact Hp|exact Hr].
      destruct t; vm_compute; discriminate.
  - intros p e n s fuel c Hp Hn Hk Hs Hs1 HB Hf.
    destruct (sparse_pow_fit (int_num true t) ival (checked_lawful t) _ (checked_fits t) (imax t) _ (int_fit t) (imin_cases t)
                n fuel p e s) as (r & Hr & _); auto.
    exists r. split; [exact Hr|]. eapply (C10_sparse_pow _ _ _ _ (checked_lawful t)); [exact Hp| |exact Hr].
    left. reflexivity.
  - intros m e He. unfold mono_pow. pose proof (upow_returns t (mcoef m) e He) as K.
    assert (Ep : @rpow Z_ring (ival (mcoef m)) (N.to_nat e) = ival (mcoef m) ^ Z.of_N e).
    { rewrite <- (N2Nat.id e) at 2. generalize (N.to_nat e) as k. induction k as [|k IH]; [reflexivity|].
      cbn [rpow rmul Z_ring]. rewrite IH. rewrite !nat_N_Z. rewrite <- Z.pow_succ_r by lia. f_equal. lia. }
    rewrite <- Ep, <- K. split.
    + intros (r & Hr). inv_ok. split; [eauto|]. cbn [n_chk int_num] in E0. unfold umul in E0.
      destruct (N.leb_spec (mdeg m * e) USIZE_MAX); [assumption|discriminate].
    + intros ((c & Hc) & Hd). rewrite Hc. cbn [bind n_chk int_num]. unfold umul.
      destruct (N.leb_spec (mdeg m * e) USIZE_MAX); [|lia]. cbn [bind]. eauto.
Qed.

(** Evaluation: the value of the polynomial of magnitudes at the magnitude of the point. *)
Theorem C61_eval : forall t (x : int t) v, v <= imax t ->
  (forall l, @is_value Z_ring (magnitudes (dcoef Z_ring ival l)) (Z.abs (ival x)) v ->
     exists r, dense_eval (int_num true t) l x = Ok r /\ @is_value Z_ring (dcoef Z_ring ival l) (ival x) (ival r)) /\
  (forall m, swf m -> Forall (fun kv => (fst kv < 2 ^ 32)%N /\ (ival (snd kv) = 0 -> in_range t (ival x ^ Z.of_N (fst kv)) = true)) m ->
     @is_value Z_ring (magnitudes (scoef Z_ring ival m)) (Z.abs (ival x)) v ->
     exists r, sparse_eval (int_num true t) m x = Ok r /\ @is_value Z_ring (scoef Z_ring ival m) (ival x) (ival r)) /\
  (forall b, @is_value Z_ring (magnitudes (bpoly Z_ring ival b)) (Z.abs (ival x)) v ->
     exists r, bino_eval (int_num true t) b x = Ok r /\ @is_value Z_ring (bpoly Z_ring ival b) (ival x) (ival r)) /\
  (forall b, @is_value Z_ring (magnitudes (tpoly Z_ring ival b)) (Z.abs (ival x)) v ->
     exists r, trino_eval (int_num true t) b x = Ok r /\ @is_value Z_ring (tpoly Z_ring ival b) (ival x) (ival r)) /\
  (forall a, @is_value Z_ring (magnitudes (dcoef Z_ring ival a)) (Z.abs (ival x)) v ->
     exists r, arr_eval (int_num true t) a x = Ok r /\ @is_value Z_ring (dcoef Z_ring ival a) (ival x) (ival r)).
Proof.
  intros t x v Hv.
  assert (HD : forall l, @is_value Z_ring (magnitudes (dcoef Z_ring ival l)) (Z.abs (ival x)) v ->
     exists r, dense_eval (int_num true t) l x = Ok r /\ @is_value Z_ring (dcoef Z_ring ival l) (ival x) (ival r)).
  { intros l Hl. destruct (dense_eval_fit (int_num true t) ival (checked_lawful t) _ (checked_fits t) (imax t) _ (int_fit t)
      (imin_cases t) l x v Hl Hv) as (r & Hr). exists r. split; [exact Hr|]. apply (dense_eval_value _ _ _ (checked_lawful t) _ _ _ Hr). }
  split; [exact HD|]. split; [|split; [|split; [|exact HD]]].
  - intros m Hm Hk Hl.
    assert (Hk' : Forall (fun kv => (fst kv < 2 ^ 32)%N /\ exists p, upow (int_num true t) x (fst kv) = Ok p) m).
    { rewrite Forall_forall in *. intros [k c] Hi. destruct (Hk _ Hi) as [K1 K2]. cbn [fst snd] in *. split; [exact K1|].
      apply (upow_returns t x k K1).
      assert (Ep : @rpow Z_ring (ival x) (N.to_nat k) = ival x ^ Z.of_N k).
      { clear. rewrite <- (N2Nat.id k) at 2. generalize (N.to_nat k) as j. induction j as [|j IH]; [reflexivity|].
        cbn [rpow rmul Z_ring]. rewrite IH. rewrite !nat_N_Z. rewrite <- Z.pow_succ_r by lia. f_equal. lia. }
      destruct (Z.eq_dec (ival c) 0) as [E|E]; [rewrite Ep; auto|].
      apply int_fit.
      - (* one term of a sum of non-negative terms *)
        rewrite Zabs_rpow. destruct Hl as (n & Hn & ->). etransitivity; [|exact Hv].
        set (g := fun i => @rmul Z_ring (magnitudes (scoef Z_ring ival m) i) (@rpow Z_ring (Z.abs (ival x)) i)).
        assert (G0 : forall i, 0 <= g i).
        { intros i. unfold g, magnitudes. rewrite <- Zabs_rpow. cbn [rmul Z_ring]. nia. }
        assert (Gk : @rpow Z_ring (Z.abs (ival x)) (N.to_nat k) <= g (N.to_nat k)).
        { unfold g, magnitudes. rewrite (scoef_in ival m k c Hm Hi), <- Zabs_rpow. cbn [rmul Z_ring]. nia. }
        assert (Hlt : (N.to_nat k < n)%nat).
        { destruct (Nat.lt_ge_cases (N.to_nat k) n) as [|Hge]; [assumption|exfalso]. apply Hn in Hge.
          unfold magnitudes in Hge. rewrite (scoef_in ival m k c Hm Hi) in Hge. cbn [r0 Z_ring] in Hge. lia. }
        etransitivity; [exact Gk|]. clear - G0 Hlt. induction n as [|n IH]; [lia|]. cbn [sumn radd Z_ring].
        pose proof (G0 n). pose proof (sumn_nonneg g n ltac:(intros; apply G0)).
        destruct (Nat.eq_dec (N.to_nat k) n) as [->|]; cbn [car Z_ring] in *; [lia|].
        specialize (IH ltac:(lia)). cbn [car Z_ring] in *. lia.
      - destruct (imin_cases t) as [K|K]; [auto|right]. rewrite Ep. apply Z.pow_nonneg, K. }
    destruct (sparse_eval_fit (int_num true t) ival (checked_lawful t) _ (checked_fits t) (imax t) _ (int_fit t)
      (imin_cases t) m x v Hm Hk' Hl Hv) as (r & Hr). exists r. split; [exact Hr|].
    apply (sparse_eval_value _ _ _ (checked_lawful t) m x r); [|exact Hr].
    eapply Forall_impl; [|exact Hk]. cbn. tauto.
  - intros b Hl. destruct (bino_eval_fit (int_num true t) ival (checked_lawful t) _ (checked_fits t) (imax t) _ (int_fit t)
      (imin_cases t) b x v Hl Hv) as (r & Hr). exists r. split; [exact Hr|]. apply (bino_eval_value _ _ _ (checked_lawful t) _ _ _ Hr).
  - intros b Hl. destruct (trino_eval_fit (int_num true t) ival (checked_lawful t) _ (checked_fits t) (imax t) _ (int_fit t)
      (imin_cases t) b x v Hl Hv) as (r & Hr). exists r. split; [exact Hr|]. apply (trino_eval_value _ _ _ (checked_lawful t) _ _ _ Hr).
Qed.

(** For non-negative coefficients and points the bound is exact, *)
Theorem C61_eval_nonneg : forall t (l : list (int t)) x v,
  (forall d, 0 <= dcoef Z_ring ival l d) -> 0 <= ival x -> @is_value Z_ring (dcoef Z_ring ival l) (ival x) v ->
  (exists r, dense_eval (int_num true t) l x = Ok r) <-> v <= imax t.
Proof.
  intros t l x v Hl Hx Hv. split.
  - intros (r & Hr). pose proof (dense_eval_value _ _ _ (checked_lawful t) _ _ _ Hr) as K.
    rewrite (is_value_fun _ _ _ _ Hv K). pose proof (ival_ok r) as R. apply in_range_iff in R. lia.
  - intros H. destruct (C61_eval t x v H) as (D & _). destruct (D l) as (r & Hr & _); [|eauto].
    rewrite Z.abs_eq by exact Hx. eapply is_value_ext; [|exact Hv]. intros d. unfold magnitudes. rewrite Z.abs_eq; [reflexivity|apply Hl].
Qed.

(** but in general a representable result does not rule out an overflow on the way:
    2x - 100 at 100 is 100. *)
Theorem C61_converse_refuted : exists (l : list (int I8)) x v,
  @is_value Z_ring (dcoef Z_ring ival l) (ival x) v /\ in_range I8 v = true /\
  dense_eval (int_num true I8) l x = Panic POverflow.
Proof.
  exists (map (mk_int I8) [2; -100]), (mk_int I8 100), 100. split; [|split].
  - exists 2%nat. split; [|reflexivity]. intros i Hi. apply dcoef_overflow. exact Hi.
  - reflexivity.
  - vm_compute. reflexivity.
Qed.

Example C61_case :
  rmap (map ival) (dense_pow (int_num true I8) 10 (map (mk_int I8) [1; -1]) 6) = Ok [1; -6; 15; -20; 15; -6; 1]
  /\ (1 + 1) ^ Z.of_N 6 <= imax I8
  /\ dense_pow (int_num true I8) 12 (map (mk_int I8) [1; -1]) 10 = Panic POverflow
  /\ rmap ival (dense_eval (int_num true I8) (map (mk_int I8) [1; -2; 0; 7]) (mk_int I8 (-4))) = Ok (-89)
  /\ rmap ival (dense_eval (int_num true I8) (map (mk_int I8) [1; 0; 0]) (mk_int I8 11)) = Ok 121
  /\ dense_eval (int_num true I8) (map (mk_int I8) [1; 0; 0]) (mk_int I8 12) = Panic POverflow
  /\ rmap (map (fun kv => (fst kv, ival (snd kv)))) (sparse_mul (int_num true I8) (smap I8 [(0%N, 10); (9%N, -3)]) (smap I8 [(1%N, 12)]))
     = Ok [(1%N, 120); (10%N, -36)].
Proof. repeat split; try (vm_compute; reflexivity). vm_compute. discriminate. Qed.

Example C61_eval_hypotheses :
  @is_value Z_ring (magnitudes (dcoef Z_ring ival (map (mk_int I8) [1; -2; 0; 7]))) (Z.abs (ival (mk_int I8 (-4)))) 103 /\ 103 <= imax I8.
Proof.
  split; [|vm_compute; discriminate]. exists 4%nat. split; [|vm_compute; reflexivity].
  intros i Hi. unfold magnitudes. rewrite dcoef_overflow by exact Hi. reflexivity.
Qed.
