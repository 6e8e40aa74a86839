(** C71: over the real numbers, derivatives are slopes and integrals are areas. *)

From Coquelicot Require Import Coquelicot.
From Coq Require Import List NArith ZArith Reals Lia Lra.
From Verif Require Import Base Num Spec SpecFacts Laws Terms Dense DenseFacts DenseCalc Mono Bino Trino ArrPoly FixedFacts
  Sparse SparseFacts SparseCalc Integr RealNum P_Dense2 P_Sparse2 P_Fixed2 P_Integral.
Import List.
Import ListNotations.
Local Open Scope R_scope.

Notation rid := (fun a : R => a).

Lemma sum_shift (p : nat -> R) x n :
  @sumn R_ring (fun i => p i * (INR i * x ^ pred i)) (S n) = @sumn R_ring (fun j => INR (S j) * p (S j) * x ^ j) n.
Proof.
  induction n as [|n IH]; [cbn; ring|]. change (@sumn R_ring ?f (S ?m)) with (@sumn R_ring f m + f m).
  change (@sumn R_ring (fun i => p i * (INR i * x ^ pred i)) (S n) + p (S n) * (INR (S n) * x ^ n) =
          @sumn R_ring (fun j => INR (S j) * p (S j) * x ^ j) n + INR (S n) * p (S n) * x ^ n).
  rewrite IH. ring.
Qed.

Lemma sum_slope (p : nat -> R) n x :
  derivable_pt_lim (fun t => @sumn R_ring (fun i => p i * t ^ i) n) x (@sumn R_ring (fun i => p i * (INR i * x ^ pred i)) n).
Proof.
  induction n as [|n IH]; [apply derivable_pt_lim_const|].
  apply (derivable_pt_lim_plus (fun t => @sumn R_ring (fun i => p i * t ^ i) n) (fun t => p n * t ^ n)); [exact IH|].
  apply (derivable_pt_lim_scal (fun t => t ^ n) (p n)). apply derivable_pt_lim_pow.
Qed.

Lemma value_fixed (p : poly R_ring) (F : R -> R) : (forall t, is_value p t (F t)) ->
  exists n, (forall i, (n <= i)%nat -> p i = 0) /\ forall t, F t = @sumn R_ring (fun i => p i * t ^ i) n.
Proof.
  intros H. destruct (H 0) as (n & Hn & _). exists n. split; [exact Hn|]. intros t.
  apply (is_value_fun p t); [apply H|]. exists n. split; [exact Hn|].
  reflexivity.
Qed.

(** The value of the formal derivative is the slope. *)
Lemma slope (p q : poly R_ring) F x v : (forall t, is_value p t (F t)) -> peq q (pderiv p) -> is_value q x v -> derivable_pt_lim F x v.
Proof.
  intros HF Hq Hv. destruct (value_fixed p F HF) as (n & Hn & EF).
  assert (E : v = @sumn R_ring (fun i => p i * (INR i * x ^ pred i)) (S n)).
  { rewrite sum_shift. apply (is_value_fun q x); [exact Hv|]. exists n. split.
    - intros i Hi. rewrite (Hq i). unfold pderiv. rewrite (Hn (S i)) by lia. cbn. ring.
    - clear -Hq. induction n as [|n IH]; [reflexivity|]. cbn [sumn]. rewrite IH, (Hq n). unfold pderiv. rewrite R_of_nat. reflexivity. }
  rewrite E. intros eps He. destruct (sum_slope p (S n) x eps He) as (d & Hd). exists d. intros h Hh1 Hh2.
  rewrite !EF. replace (@sumn R_ring (fun i => p i * (x + h) ^ i) n) with (@sumn R_ring (fun i => p i * (x + h) ^ i) (S n)).
  - replace (@sumn R_ring (fun i => p i * x ^ i) n) with (@sumn R_ring (fun i => p i * x ^ i) (S n)); [apply Hd; assumption|].
    cbn [sumn]. rewrite (Hn n) by lia. cbn. ring.
  - cbn [sumn]. rewrite (Hn n) by lia. cbn. ring.
Qed.

Definition area (F : R -> R) (a b v : R) : Prop := exists pr : Riemann_integrable F a b, RiemannInt pr = v.

Lemma area_of (p g : poly R_ring) (F : R -> R) (a b v : R) : (forall t, is_value p t (F t)) -> peq (pderiv g) p -> difference g a b v -> area F a b v.
Proof.
  intros HF Hg (va & vb & Ha & Hb & Ev). cbn in Ev. subst v.
  assert (Hgv : exists G : R -> R, forall t, is_value g t (G t)).
  { destruct Ha as (n & Hn & _). exists (fun t => @sumn R_ring (fun i => rmul (g i) (rpow t i)) n). intros t. exists n. auto. }
  destruct Hgv as (G & HG).
  assert (DG : forall x : R, is_derive G x (F x)).
  { intros x. apply is_derive_Reals. apply (slope g (pderiv g) G x (F x) HG); [intros d; reflexivity|].
    eapply is_value_ext; [|apply HF]. intros d. symmetry. apply Hg. }
  assert (CF : forall x : R, continuous F x).
  { intros x. assert (Hv : exists w, is_value (pderiv p) x w).
    { destruct (HF 0) as (n & Hn & _). exists (@sumn R_ring (fun i => rmul (pderiv p i) (@rpow R_ring x i)) n). exists n. split; [|reflexivity].
      intros i Hi. unfold pderiv. rewrite (Hn (S i)) by lia. cbn. ring. }
    destruct Hv as (w & Hw). apply (ex_derive_continuous (V := R_NormedModule) F x). exists w. apply is_derive_Reals.
    apply (slope p (pderiv p) F x w HF); [intros d; reflexivity|exact Hw]. }
  assert (I : is_RInt F a b (G b - G a)).
  { apply (is_RInt_derive G F a b); intros; [apply DG|apply CF]. }
  assert (X : ex_RInt F a b) by (exists (G b - G a); exact I).
  exists (ex_RInt_Reals_0 F a b X). rewrite <- RInt_Reals. rewrite (is_RInt_unique _ _ _ _ I).
  rewrite (is_value_fun g b _ _ (HG b) Hb), (is_value_fun g a _ _ (HG a) Ha). reflexivity.
Qed.

(** eval of the derivative is the slope of eval. *)
Theorem C71_derivative_is_slope : forall chk (F : R -> R) x v, let O := R_num chk in
  (forall p q, vec_ok O p -> dense_derivative O p = Ok q -> (forall t, dense_eval O p t = Ok (F t)) ->
     dense_eval O q x = Ok v -> derivable_pt_lim F x v) /\
  (forall m q, swf m -> Forall (fun kv => (fst kv < 2 ^ 32)%N) m -> Forall (fun kv => (fst kv < 2 ^ 32)%N) q ->
     sparse_derivative O m = Ok q -> (forall t, sparse_eval O m t = Ok (F t)) -> sparse_eval O q x = Ok v -> derivable_pt_lim F x v) /\
  (forall m q, (mdeg m < 2 ^ 32)%N -> mono_derivative O m = Ok q -> (forall t, mono_eval O m t = Ok (F t)) ->
     (mdeg q < 2 ^ 32)%N -> mono_eval O q x = Ok v -> derivable_pt_lim F x v) /\
  (forall b, (forall t, bino_eval O b t = Ok (F t)) -> bino_eval O (bino_derivative O b) x = Ok v -> derivable_pt_lim F x v) /\
  (forall b q, trino_derivative O b = Ok q -> (forall t, trino_eval O b t = Ok (F t)) -> trino_eval O q x = Ok v -> derivable_pt_lim F x v) /\
  (forall a q, (len a <= USIZE_MAX)%N -> arr_derivative O a = Ok q -> (forall t, arr_eval O a t = Ok (F t)) ->
     arr_eval O q x = Ok v -> derivable_pt_lim F x v).
Proof.
  intros chk F x v O. pose proof (R_lawful chk) as L.
  destruct (C13_fixed_derivative R O R_ring rid L) as (D1 & D2 & D3 & D4).
  split; [|split; [|split; [|split; [|split]]]].
  - intros p q Hv Hq HF Hx. eapply (slope (dcoef R_ring rid p) (dcoef R_ring rid q)).
    + intros t. apply (C12_dense_eval R O R_ring rid L), HF.
    + apply (C13_dense_derivative R O R_ring rid L); assumption.
    + apply (C12_dense_eval R O R_ring rid L _ x v Hx).
  - intros m q Hm B1 B2 Hq HF Hx. eapply (slope (scoef R_ring rid m) (scoef R_ring rid q)).
    + intros t. apply (C12_sparse_eval R O R_ring rid L m t (F t)); auto.
    + apply (C13_sparse_derivative R O R_ring rid L m q Hm Hq).
    + apply (C12_sparse_eval R O R_ring rid L q x v); assumption.
  - intros m q Hm Hq HF B2 Hx. eapply (slope (mpoly R_ring rid m) (mpoly R_ring rid q)).
    + intros t. destruct (C12_fixed_eval R O R_ring rid L t (F t)) as (E & _). apply E; auto.
    + apply D1; [|exact Hq]. apply N.lt_le_incl, N.lt_le_trans with (2 ^ 32)%N; [exact Hm|vm_compute; discriminate].
    + destruct (C12_fixed_eval R O R_ring rid L x v) as (E & _). apply E; auto.
  - intros b HF Hx. eapply (slope (bpoly R_ring rid b) (bpoly R_ring rid (bino_derivative O b))).
    + intros t. destruct (C12_fixed_eval R O R_ring rid L t (F t)) as (_ & E & _). apply E, HF.
    + apply D2.
    + destruct (C12_fixed_eval R O R_ring rid L x v) as (_ & E & _). apply E, Hx.
  - intros b q Hq HF Hx. eapply (slope (tpoly R_ring rid b) (tpoly R_ring rid q)).
    + intros t. destruct (C12_fixed_eval R O R_ring rid L t (F t)) as (_ & _ & E & _). apply E, HF.
    + apply D3, Hq.
    + destruct (C12_fixed_eval R O R_ring rid L x v) as (_ & _ & E & _). apply E, Hx.
  - intros a q Ha Hq HF Hx. eapply (slope (dcoef R_ring rid a) (dcoef R_ring rid q)).
    + intros t. destruct (C12_fixed_eval R O R_ring rid L t (F t)) as (_ & _ & _ & E). apply E, HF.
    + apply (D4 a q Ha Hq).
    + destruct (C12_fixed_eval R O R_ring rid L x v) as (_ & _ & _ & E). apply E, Hx.
Qed.

Lemma R_char0 : char0 R_ring.
Proof. intros n H. rewrite R_of_nat in H. cbn [r0 R_ring] in H. revert H. apply not_0_INR. lia. Qed.

(** Integral::eval(a, b) of the integral is the Riemann integral of eval from a to b, for b
    below a too. *)
Theorem C71_integral_is_area : forall chk (F : R -> R) a b v, let O := R_num chk in
  (forall p g, vec_ok O p -> dense_integral O p = Ok g -> (forall t, dense_eval O p t = Ok (F t)) ->
     dense_integral_eval O g a b = Ok v -> area F a b v) /\
  (forall m g, swf m -> Forall (fun kv => (fst kv < 2 ^ 32)%N) m -> Forall (fun kv => (fst kv < 2 ^ 32)%N) g ->
     sparse_integral O m = Ok g -> (forall t, sparse_eval O m t = Ok (F t)) -> sparse_integral_eval O g a b = Ok v -> area F a b v) /\
  (forall m g, (mdeg m < 2 ^ 32)%N -> Forall (fun kv => (fst kv < 2 ^ 32)%N) g -> mono_integral O m = Ok g ->
     (forall t, mono_eval O m t = Ok (F t)) -> sparse_integral_eval O g a b = Ok v -> area F a b v) /\
  (forall p g, bino_integral O p = Ok g -> (forall t, bino_eval O p t = Ok (F t)) -> dense_integral_eval O g a b = Ok v -> area F a b v) /\
  (forall p g, trino_integral O p = Ok g -> (forall t, trino_eval O p t = Ok (F t)) -> dense_integral_eval O g a b = Ok v -> area F a b v) /\
  (forall p g, (len p <= USIZE_MAX)%N -> arr_integral O p = Ok g -> (forall t, arr_eval O p t = Ok (F t)) ->
     dense_integral_eval O g a b = Ok v -> area F a b v).
Proof.
  intros chk F a b v O. pose proof (R_lawful chk) as L. pose proof (R_exact_div chk) as X. pose proof R_char0 as C.
  destruct (C14_fixed_integral_exact R O R_ring rid L X C) as (I1 & I2 & I3 & I4).
  destruct (C14_eval_difference R O R_ring rid L a b v) as (V1 & V2).
  assert (LT : (2 ^ 32 < USIZE_MAX)%N) by (vm_compute; reflexivity).
  split; [|split; [|split; [|split; [|split]]]].
  - intros p g Hv Hg HF Hx. apply (area_of (dcoef R_ring rid p) (dcoef R_ring rid g)).
    + intros t. apply (C12_dense_eval R O R_ring rid L), HF.
    + apply (dense_integral_exact O R_ring rid L X C p g Hv Hg).
    + apply V1, Hx.
  - intros m g Hm B1 B2 Hg HF Hx. apply (area_of (scoef R_ring rid m) (scoef R_ring rid g)).
    + intros t. apply (C12_sparse_eval R O R_ring rid L m t (F t)); auto.
    + apply (C14_sparse_integral_exact R O R_ring rid L X C m g Hm); [|exact Hg].
      right. eapply Forall_impl; [|exact B1]. cbn. intros kv H. apply N.lt_trans with (2 ^ 32)%N; assumption.
    + apply V2; assumption.
  - intros m g Hm B2 Hg HF Hx. apply (area_of (mpoly R_ring rid m) (scoef R_ring rid g)).
    + intros t. destruct (C12_fixed_eval R O R_ring rid L t (F t)) as (E & _). apply E; auto.
    + apply I1; [|exact Hg]. apply N.lt_trans with (2 ^ 32)%N; assumption.
    + apply V2; assumption.
  - intros p g Hg HF Hx. apply (area_of (bpoly R_ring rid p) (dcoef R_ring rid g)).
    + intros t. destruct (C12_fixed_eval R O R_ring rid L t (F t)) as (_ & E & _). apply E, HF.
    + apply I2, Hg.
    + apply V1, Hx.
  - intros p g Hg HF Hx. apply (area_of (tpoly R_ring rid p) (dcoef R_ring rid g)).
    + intros t. destruct (C12_fixed_eval R O R_ring rid L t (F t)) as (_ & _ & E & _). apply E, HF.
    + apply I3, Hg.
    + apply V1, Hx.
  - intros p g Hl Hg HF Hx. apply (area_of (dcoef R_ring rid p) (dcoef R_ring rid g)).
    + intros t. destruct (C12_fixed_eval R O R_ring rid L t (F t)) as (_ & _ & _ & E). apply E, HF.
    + apply I4; assumption.
    + apply V1, Hx.
Qed.

(** Every dense polynomial has a derivative and an integral, and both can be evaluated. *)
Theorem C71_calculus_returns : forall chk p, let O := R_num chk in (len p + 1 <= n_max_len O)%N ->
  exists F q g, (forall t, dense_eval O p t = Ok (F t)) /\ dense_derivative O p = Ok q /\ dense_integral O p = Ok g /\
  (forall x, exists v, dense_eval O q x = Ok v /\ derivable_pt_lim F x v) /\
  (forall a b, exists v, dense_integral_eval O g a b = Ok v /\ area F a b v).
Proof.
  intros chk p O Hp. pose proof (R_lawful chk) as L. pose proof (R_total chk) as T.
  assert (HF : exists F : R -> R, forall t, dense_eval O p t = Ok (F t)).
  { exists (fun t => match dense_eval O p t with Ok v => v | _ => 0 end). intros t.
    destruct (C12_dense_eval_returns R O T p t) as (r & ->). reflexivity. }
  destruct HF as (F & HF). pose proof (dense_degree_spec O R_ring rid L p) as G.
  assert (Hv : vec_ok O p) by (unfold vec_ok; lia).
  destruct (proj2 (C13_dense_derivative_returns R O R_ring rid L T p _ G)) as (q & Hq); [cbn; discriminate|].
  destruct (C14_dense_integral_exact R O R_ring rid L T (R_exact_div chk) R_char0 p _ Hp G) as (g & Hg & _); [cbn; discriminate|].
  exists F, q, g. split; [exact HF|]. split; [exact Hq|]. split; [exact Hg|]. split.
  - intros x. destruct (C12_dense_eval_returns R O T q x) as (v & Ev). exists v. split; [exact Ev|].
    destruct (C71_derivative_is_slope chk F x v) as (K & _). eapply K; eassumption.
  - intros a b. destruct (C14_eval_returns R O T g a b) as (v & Ev). exists v. split; [exact Ev|].
    destruct (C71_integral_is_area chk F a b v) as (K & _). eapply K; eassumption.
Qed.

Print Assumptions C71_derivative_is_slope.
Print Assumptions C71_integral_is_area.
Print Assumptions C71_calculus_returns.

(** 3x^2 + 2x: slope 8 at 1; area 2 from 0 to 1. *)
Example C71_case : exists F q g, (forall t, dense_eval (R_num true) [3; 2; 0] t = Ok (F t)) /\
  dense_derivative (R_num true) [3; 2; 0] = Ok q /\ dense_integral (R_num true) [3; 2; 0] = Ok g /\
  derivable_pt_lim F 1 8 /\ area F 0 1 2.
Proof.
  destruct (C71_calculus_returns true [3; 2; 0]) as (F & q & g & HF & Hq & Hg & HS & HA); [vm_compute; discriminate|].
  assert (VF : forall t, F t = 3 * t ^ 2 + 2 * t).
  { intros t. pose proof (HF t) as E. unfold dense_eval in E. cbn in E. destruct (Reqb t 0) eqn:Z.
    - apply Reqb_iff in Z. subst t. injection E as <-. ring.
    - injection E as <-. ring. }
  exists F, q, g. split; [exact HF|]. split; [exact Hq|]. split; [exact Hg|]. split.
  - apply is_derive_Reals. apply (is_derive_ext (fun t => 3 * t ^ 2 + 2 * t)); [intros t; symmetry; apply VF|].
    auto_derive; [auto|]. ring.
  - destruct (HA 0 1) as (v & Ev & pr & Epr). exists pr. rewrite Epr. clear Epr pr.
    destruct (C14_eval_difference R (R_num true) R_ring rid (R_lawful true) 0 1 v) as (V1 & _).
    destruct (C14_dense_integral_exact R (R_num true) R_ring rid (R_lawful true) (R_total true) (R_exact_div true) R_char0 [3; 2; 0] _
      ltac:(vm_compute; discriminate) (dense_degree_spec (R_num true) R_ring rid (R_lawful true) _) ltac:(cbn; discriminate)) as (g' & Hg' & G0 & GD).
    rewrite Hg in Hg'. injection Hg' as <-. destruct (V1 g Ev) as (va & vb & A & B & ->).
    assert (GV : forall x, is_value (dcoef R_ring rid g) x (x ^ 3 + x ^ 2)).
    { assert (K : forall d, INR (S d) * dcoef R_ring rid g (S d) = dcoef R_ring rid [3; 2; 0] d).
      { intros d. rewrite <- R_of_nat. exact (GD d). }
      intros x. exists 4%nat. split.
      - intros [|i] Hi; [lia|]. specialize (K i). assert (I : INR (S i) <> 0) by (apply not_0_INR; lia).
        assert (Z : dcoef R_ring rid [3; 2; 0] i = 0) by (apply (dcoef_overflow R_ring rid); cbn [length]; lia).
        rewrite Z in K. apply Rmult_integral in K. cbn. tauto.
      - pose proof (K 0%nat) as K0. pose proof (K 1%nat) as K1. pose proof (K 2%nat) as K2.
        cbn in K0, K1, K2. cbn [sumn rpow]. rewrite G0. cbn [radd rmul r0 r1 R_ring]. cbn in K0, K1, K2.
        replace (dcoef R_ring rid g 1%nat) with 0 by lra. replace (dcoef R_ring rid g 2%nat) with 1 by lra. replace (dcoef R_ring rid g 3%nat) with 1 by lra.
        match goal with |- ?a = ?b => change (@eq R a b) end. ring. }
    rewrite (is_value_fun _ _ _ _ A (GV 0)), (is_value_fun _ _ _ _ B (GV 1)). cbn. ring.
Qed.
