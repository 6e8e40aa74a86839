(** Property C87: what roots() reports, checked with the library's own operations: every reported root
    evaluates to zero, no other number does, and multiplying the factors x - r and the leading
    coefficient back together gives the polynomial. Arithmetic is exact here ([R_num]); complex roots are
    used as arguments and coefficients of polynomials over num::Complex ([complex_num]). *)

From Coq Require Import List NArith ZArith Reals Lia Lra Bool.
From Coq Require Import ZifyBool ZifyNat ZifyN.
From Verif Require Import Base Num Spec SpecFacts SpecDegree Laws Terms Dense DenseFacts DenseMul DenseCalc Sparse SparseFacts SparseCalc Trino Roots RealNum RootFacts RootLoop Complex.
From Verif Require Import P_Dense1 P_Dense2 P_Sparse2 P_Degree P_Roots1 P_Roots3 P_Roots4 P_Mult P_Complex.
Import ListNotations.
Local Open Scope R_scope.

(** ** Specification: the user's loop *)

(** Multiplies [acc] by x - r for each r of [zs], one factor after the other. *)
Fixpoint expand {T} (O : num T) (acc : list T) (zs : list T) : res (list T) :=
  match zs with
  | [] => Ok acc
  | r :: zs' => m <- neg O r ;; q <- dense_mul O acc [one O; m] ;; expand O q zs'
  end.

(** The roots as complex numbers. *)
Definition root_list (rs : roots R) : option (list (R * R)) :=
  match rs with
  | ManyRealRoots l => Some (map Cre l)
  | ManyComplexRoots l => Some l
  | _ => None
  end.

(** ** Proof *)

Section Expand.
Context {T} (O : num T) (R : comring) (den : T -> car R) (L : lawful O R den) (HT : total_ops O) (HD : domain R) (H10 : r1 <> @r0 R).
Notation dc := (dcoef R den).
Add Ring Rring_re : (r_theory R).

Lemma linear_coef (r m : T) : neg O r = Ok m -> peq (dc [one O; m]) (@RootLoop.plin R (den r)).
Proof.
  intros H d. apply (lw_neg _ _ _ L) in H. rewrite RootLoop.plin_at. destruct d as [|[|d]]; cbn.
  - exact H.
  - apply (lw_one _ _ _ L).
  - destruct d; reflexivity.
Qed.

Lemma linear_degree (r m : T) : neg O r = Ok m -> is_degree (dc [one O; m]) (Some 1%nat).
Proof.
  intros H. pose proof (linear_coef r m H) as E. split.
  - rewrite E, RootLoop.plin_at. exact H10.
  - intros d Hd. rewrite E, RootLoop.plin_at. destruct d as [|[|d]]; try lia. reflexivity.
Qed.

Lemma expand_ok : forall zs acc k, is_degree (dc acc) (Some k) -> vec_ok O acc -> (N.of_nat (k + length zs) + 2 <= n_max_len O)%N ->
  exists q, expand O acc zs = Ok q /\ vec_ok O q /\ peq (dc q) (pmul (dc acc) (rprod (map den zs))).
Proof.
  induction zs as [|r zs IH]; intros acc k Hk Hv Hn; cbn [expand map rprod].
  - exists acc. split; [reflexivity|]. split; [exact Hv|]. intros d. symmetry. apply pmul_pone_r.
  - destruct (to_neg _ HT r) as (m & Em). rewrite Em. cbn [bind].
    assert (Hl : vec_ok O [one O; m]) by (unfold vec_ok, len; cbn [length] in *; lia).
    pose proof (linear_degree r m Em) as Hd.
    assert (Hf : product_fits O R (dc acc) (dc [one O; m])).
    { intros i j Hi Hj. pose proof (is_degree_unique _ _ _ Hi Hk) as E1. pose proof (is_degree_unique _ _ _ Hj Hd) as E2.
      injection E1 as ->. injection E2 as ->. cbn [length] in Hn. lia. }
    assert (Hz : ~ (peq (dc acc) pzero /\ peq (dc [one O; m]) pzero)) by (intros [Z _]; destruct Hk as [Hk _]; apply Hk, Z).
    destruct (C08_dense_mul_returns _ _ _ _ L HT acc [one O; m] Hv Hl Hf Hz) as [(q & Eq) _].
    rewrite Eq. cbn [bind].
    pose proof (C08_dense_mul _ _ _ _ L acc [one O; m] q Hv Hl (or_introl Eq)) as Ec.
    assert (Hvq : vec_ok O q) by (exact (slice_mul_vec_ok O R den L _ _ _ Hv Hl Eq)).
    assert (Hdq : is_degree (dc q) (Some (k + 1)%nat)).
    { apply (is_degree_ext (pmul (dc acc) (dc [one O; m]))); [intros d; symmetry; apply Ec|]. exact (pmul_degree HD _ _ _ _ Hk Hd). }
    destruct (IH q (k + 1)%nat Hdq Hvq) as (w & Ew & Vw & Hw); [cbn [length] in Hn; lia|].
    exists w. split; [exact Ew|]. split; [exact Vw|]. intros d. rewrite Hw.
    rewrite (pmul_ext _ _ _ _ Ec (peq_refl _)), <- pmul_assoc. apply pmul_ext; [apply peq_refl|].
    apply pmul_ext; [apply linear_coef; exact Em|apply peq_refl].
Qed.
End Expand.

Lemma cprod_value zs z : is_value (@rprod C_ring zs) z (cprod z zs).
Proof.
  induction zs as [|r zs IH]; cbn [rprod cprod]; [apply (@is_value_pone C_ring)|].
  apply (@is_value_pmul C_ring); [apply (@RootLoop.plin_value C_ring)|exact IH].
Qed.

Lemma C_dom : domain C_ring.
Proof. exact (cx_domain R_ring R_domain R_real_like). Qed.

Lemma rprod_vanish (R : comring) (zs : list (car R)) d : (length zs < d)%nat -> @rprod R zs d = r0.
Proof.
  revert d. induction zs as [|r zs IH]; intros d Hd; cbn [rprod length] in *.
  - destruct d; [lia|reflexivity].
  - unfold pmul. rewrite (sumn_0 _); [reflexivity|]. intros i Hi. rewrite RootLoop.plin_at.
    pose proof (r_theory R) as RT. destruct i as [|[|i]].
    + rewrite IH by lia. apply rmul_0_r.
    + rewrite IH by lia. apply rmul_0_r.
    + apply rmul_0_l.
Qed.

(** A polynomial which splits is its leading coefficient times the product, coefficient by coefficient. *)
Lemma splits_coef (p : poly R_ring) n zs : is_degree p (Some n) -> splits p n zs -> peq (over_C p) (pmul (pmono (Cre (p n) : car C_ring) 0) (@rprod C_ring zs)).
Proof.
  intros [_ Hd] [Hl Hs].
  apply (agree_equal C_dom (S n) _ _ (map (fun i => Cre (INR i)) (seq 0 (S n)))).
  - intros i Hi. unfold over_C. rewrite Hd by lia. reflexivity.
  - intros i Hi. rewrite pmul_k. rewrite (rprod_vanish C_ring zs i); [apply rmul_0_r|]. rewrite <- Hl in Hi. exact Hi.
  - apply FinFun.Injective_map_NoDup; [|apply seq_NoDup]. intros a b H. injection H as H. apply INR_eq. exact H.
  - rewrite map_length, seq_length. lia.
  - intros z _. eexists. split; [apply Hs|]. apply (@is_value_pmul C_ring); [|apply cprod_value].
    pose proof (@is_value_pmono C_ring (Cre (p n)) 0 z) as K. cbn [rpow] in K.
    replace (Cre (p n)) with (@rmul C_ring (Cre (p n)) r1) at 2; [exact K|]. cbn. unfold Cmul, Cre. cbn. f_equal; ring.
Qed.

Lemma cmul_zero z w : Cmul z w = (0, 0) -> z = (0, 0) \/ w = (0, 0).
Proof. exact (C_dom z w). Qed.

Lemma cprod_zero z zs : cprod z zs = (0, 0) <-> In z zs.
Proof.
  induction zs as [|r zs IH]; cbn [cprod In].
  - unfold Cre. split; [intros H; injection H; lra|tauto].
  - split.
    + intros H. apply cmul_zero in H. destruct H as [H|H]; [left|right; apply IH; exact H].
      destruct r, z. unfold Csub in H. cbn in H. injection H as H1 H2. f_equal; lra.
    + intros [->|H].
      * destruct z, (cprod _ zs). unfold Cmul, Csub. cbn. f_equal; ring.
      * apply IH in H. rewrite H. unfold Cmul. cbn. f_equal; ring.
Qed.

Lemma embed_coef l : peq (dcoef (cx_ring R_ring) (cx_den (R := R_ring) (fun a => a)) (map Cre l)) (over_C (dcoef R_ring (fun a => a) l)).
Proof.
  intros d. unfold over_C, dcoef, be_coef. rewrite <- !map_rev, !map_map.
  assert (G : forall (k : list R) e, nth e (map (fun x => cx_den (R := R_ring) (fun a => a) (Cre x)) k) (0, 0) = Cre (nth e (map (fun a => a) k) 0)).
  { induction k as [|x k IH]; intros [|e]; cbn; try reflexivity. apply IH. }
  exact (G (rev l) d).
Qed.

Lemma cx_id z : cx_den (R := R_ring) (fun a : R => a) z = z.
Proof. destruct z. reflexivity. Qed.

Lemma splits_eval chk l n zs : let p := dcoef R_ring (fun a => a) l in let C := complex_num (R_num chk) in
  is_degree p (Some n) -> splits p n zs ->
  (forall z, dense_eval C (map Cre l) z = Ok (0, 0) <-> In z zs) /\
  ((N.of_nat n + 2 <= n_max_len C)%N -> exists q, expand C [Cre (p n)] zs = Ok q /\ dense_eq C q (map Cre l) = Ok true).
Proof.
  intros p C Hd Hs. pose proof (complex_lawful _ R_ring _ (R_lawful chk)) as LC. pose proof (complex_total _ (R_total chk)) as TC. fold C in LC, TC.
  assert (Hn0 : Cre (p n) <> (0, 0)) by (destruct Hd as [Hd _]; intros H; injection H; exact Hd).
  split.
  - intros z. destruct (C12_dense_eval_returns _ C TC (map Cre l) z) as (v & Ev). rewrite Ev.
    pose proof (C12_dense_eval _ _ _ _ LC _ _ _ Ev) as V. rewrite !cx_id in V.
    assert (E : v = Cmul (Cre (p n)) (cprod z zs)).
    { refine (@is_value_fun (cx_ring R_ring) _ z v _ V _). apply (@is_value_ext (cx_ring R_ring) (over_C p)); [intros d; symmetry; apply embed_coef|]. exact (proj2 Hs z). }
    rewrite <- cprod_zero, E. split.
    + intros H. assert (K : Cmul (Cre (p n)) (cprod z zs) = (0, 0)) by congruence. apply cmul_zero in K. tauto.
    + intros ->. unfold Cmul. cbn. do 2 f_equal; ring.
  - intros Hn. destruct (expand_ok C (cx_ring R_ring) _ LC TC C_dom) with (zs := zs) (acc := [Cre (p n)]) (k := 0%nat) as (q & Eq & _ & Hq).
    + intros H. injection H. cbn. lra.
    + split; [exact Hn0|]. intros [|d] H; [lia|]. destruct d; reflexivity.
    + unfold vec_ok, len. cbn [length]. lia.
    + destruct Hs as [Hl _]. lia.
    + exists q. split; [exact Eq|]. destruct (C05_dense_eq _ C _ _ LC q (map Cre l)) as (b & Eb & Hb). rewrite Eb. f_equal. apply Hb.
      intros d. rewrite embed_coef, Hq. fold p. rewrite (splits_coef p n zs Hd Hs).
      refine (@pmul_ext (cx_ring R_ring) _ _ _ _ _ _ d); [intros [|[|e]]; reflexivity|]. rewrite (map_ext _ (fun z => z) cx_id), map_id. intros e. reflexivity.
Qed.

Lemma real_splits (p : poly R_ring) n xs : is_degree p (Some n) -> splits p n (map Cre xs) ->
  length xs = n /\ peq p (pmul (pmono (p n) 0) (@rprod R_ring xs)).
Proof.
  intros Hd Hs. split; [rewrite <- (proj1 Hs), map_length; reflexivity|]. intros d.
  assert (E : forall ys, peq (over_C (@rprod R_ring ys)) (@rprod C_ring (map Cre ys))).
  { induction ys as [|y ys IH]; cbn [map rprod]; [intros [|e]; reflexivity|]. intros e. rewrite over_C_mul.
    apply pmul_ext; [|exact IH]. intros i. unfold over_C. rewrite !RootLoop.plin_at. destruct i as [|[|i]]; cbn; unfold Copp, Cre; cbn; try reflexivity. f_equal. ring. }
  pose proof (splits_coef p n _ Hd Hs d) as K.
  rewrite (pmul_ext (R := C_ring) (pmono (Cre (p n) : car C_ring) 0) (over_C (pmono (p n) 0)) (@rprod C_ring (map Cre xs)) (over_C (@rprod R_ring xs))) in K.
  - rewrite <- over_C_mul in K. injection K as K. exact K.
  - intros [|e]; reflexivity.
  - intros e. symmetry. apply E.
Qed.

Lemma rprod_zero (xs : list R) x v : is_value (@rprod R_ring xs) x v -> v = 0 <-> In x xs.
Proof.
  revert v. induction xs as [|y xs IH]; intros v Hv; cbn [rprod In] in *.
  - assert (v = 1) by (eapply (@is_value_fun R_ring); [exact Hv|apply (@is_value_pone R_ring)]). subst v. split; [lra|tauto].
  - destruct (@rprod_value_ex R_ring xs x) as (w & Hw).
    assert (E : v = (x - y) * w).
    { eapply (@is_value_fun R_ring); [exact Hv|]. apply (@is_value_pmul R_ring); [apply (@RootLoop.plin_value R_ring)|exact Hw]. }
    rewrite <- (IH w Hw). rewrite E. split.
    + intros H. apply Rmult_integral in H. destruct H as [H|H]; [left; lra|right; exact H].
    + intros [H|H]; [replace (x - y) with 0 by (rewrite H; symmetry; apply Rminus_diag_eq; reflexivity); apply Rmult_0_l|rewrite H; apply Rmult_0_r].
Qed.

Lemma real_splits_zero (p : poly R_ring) n xs x v : is_degree p (Some n) -> splits p n (map Cre xs) -> is_value p x v -> v = 0 <-> In x xs.
Proof.
  intros Hd Hs Hv. destruct (real_splits p n xs Hd Hs) as [_ E]. destruct (@rprod_value_ex R_ring xs x) as (w & Hw).
  assert (K : v = p n * w).
  { eapply (@is_value_fun R_ring); [exact Hv|]. apply (@is_value_ext R_ring (pmul (pmono (p n) 0) (@rprod R_ring xs))); [intros d; symmetry; apply E|].
    apply (@is_value_pmul R_ring); [|exact Hw]. pose proof (@is_value_pmono R_ring (p n) 0 x) as K. cbn in K. rewrite Rmult_1_r in K. exact K. }
  rewrite <- (rprod_zero xs x w Hw), K. destruct Hd as [Hd _]. cbn in Hd. split; [intros H; apply Rmult_integral in H; tauto|intros ->; apply Rmult_0_r].
Qed.

Lemma real_eval chk l n xs : let p := dcoef R_ring (fun a => a) l in let O := R_num chk in
  is_degree p (Some n) -> splits p n (map Cre xs) ->
  (forall x, dense_eval O l x = Ok 0 <-> In x xs) /\
  ((N.of_nat n + 2 <= n_max_len O)%N -> exists q, expand O [p n] xs = Ok q /\ dense_eq O q l = Ok true).
Proof.
  intros p O Hd Hs. pose proof (R_lawful chk) as L. pose proof (R_total chk) as HT. fold O in L, HT. destruct (real_splits p n xs Hd Hs) as [Hl E]. split.
  - intros x. destruct (C12_dense_eval_returns _ O HT l x) as (v & Ev). rewrite Ev.
    rewrite <- (real_splits_zero p n xs x v Hd Hs (C12_dense_eval _ _ _ _ L _ _ _ Ev)). split; [intros H; injection H; auto|intros ->; reflexivity].
  - intros Hn. destruct (expand_ok O R_ring _ L HT R_domain) with (zs := xs) (acc := [p n]) (k := 0%nat) as (q & Eq & _ & Hq).
    + cbn. lra.
    + split; [exact (proj1 Hd)|]. intros [|d] H; [lia|]. destruct d; reflexivity.
    + unfold vec_ok, len. cbn [length]. lia.
    + lia.
    + exists q. split; [exact Eq|]. destruct (C05_dense_eq _ O _ _ L q l) as (b & Eb & Hb). rewrite Eb. f_equal. apply Hb.
      intros d. rewrite Hq. refine (eq_trans _ (eq_sym (E d))). apply pmul_ext; [intros [|[|e]]; reflexivity|]. rewrite map_id. intros e. reflexivity.
Qed.

Lemma real_sparse_eval chk m n xs : let p := scoef R_ring (fun a => a) m in let O := R_num chk in
  Forall (fun kv => (fst kv < 2 ^ 32)%N) m -> is_degree p (Some n) -> splits p n (map Cre xs) ->
  forall x, sparse_eval O m x = Ok 0 <-> In x xs.
Proof.
  intros p O Hk Hd Hs x. pose proof (R_lawful chk) as L. fold O in L.
  destruct (sparse_eval_total O (R_total chk) ltac:(intros a e; eexists; reflexivity) m x) as (v & Ev). rewrite Ev. rewrite <- (real_splits_zero p n xs x v Hd Hs (C12_sparse_eval _ _ _ _ L _ _ _ Hk Ev)).
  split; [intros H; injection H; auto|intros ->; reflexivity].
Qed.

(** ** C87 *)

(** Degrees 1 to 3, where the formulas apply (cubics: the cases C80 covers). *)
Theorem C87_small_partial : forall chk cb rnd, (forall y, cb y ^ 3 = y) -> forall solver dfuel fuel n l,
  let O := R_num chk in let S := R_rops cb rnd in let C := complex_num O in let p := dcoef R_ring (fun a => a) l in
  is_degree p (Some n) -> (1 <= n <= 3)%nat -> (n = 1%nat \/ exists i, (i < n)%nat /\ p i <> 0) ->
  (n = 3%nat -> 0 <= cD (p 3%nat) (p 2%nat) (p 1%nat) (p 0%nat) \/
     cubic (p 3%nat) (p 2%nat) (p 1%nat) (p 0%nat) (- p 2%nat / (3 * p 3%nat)) = 0) ->
  exists rs zs, dense_roots O S solver dfuel fuel l = Ok rs /\ root_list rs = Some zs /\ length zs = n /\
    (forall z, dense_eval C (map Cre l) z = Ok (0, 0) <-> In z zs) /\
    exists q, expand C [Cre (p n)] zs = Ok q /\ dense_eq C q (map Cre l) = Ok true.
Proof.
  intros chk cb rnd Hcb solver dfuel fuel n l O S C p Hd Hn Hi H3.
  destruct (proj1 (C80_small_partial chk cb rnd Hcb solver dfuel fuel n) l (Logic.conj Hd (Logic.conj Hn (Logic.conj Hi H3)))) as (rs & Er & Hr).
  exists rs. fold p in Hr.
  assert (E : exists zs, root_list rs = Some zs /\ splits p n zs) by (destruct rs; try contradiction; eexists; (split; [reflexivity|exact Hr])).
  destruct E as (zs & E & Hs). exists zs. split; [exact Er|]. split; [exact E|]. split; [exact (proj1 Hs)|].
  destruct (splits_eval chk l n zs Hd Hs) as [A B]. split; [exact A|]. apply B. cbn. lia.
Qed.

(** The same for real roots, in real arithmetic throughout, of any degree: degrees 1 to 3 as above, and
    degree 4 and more when the iteration returns every root. *)
Theorem C87_real_partial : forall chk cb rnd, (forall y, cb y ^ 3 = y) -> forall solver dfuel fuel n xs,
  let O := R_num chk in let S := R_rops cb rnd in
  (forall pass tl, NoDup (solver pass tl) /\ forall r, In r (solver pass tl) -> is_value (dcoef R_ring (fun a => a) (1 :: tl)) r 0) ->
  let applies (p : poly R_ring) := is_degree p (Some n) /\ (1 <= n < dfuel)%nat /\ (n = 1%nat \/ exists i, (i < n)%nat /\ p i <> 0) /\
    (n = 3%nat -> 0 <= cD (p 3%nat) (p 2%nat) (p 1%nat) (p 0%nat) \/
     cubic (p 3%nat) (p 2%nat) (p 1%nat) (p 0%nat) (- p 2%nat / (3 * p 3%nat)) = 0) in
  (N.of_nat n + 2 <= n_max_len O)%N ->
  (forall l, let p := dcoef R_ring (fun a => a) l in applies p -> vec_ok O l -> dense_roots O S solver dfuel fuel l = Ok (ManyRealRoots xs) ->
     length xs = n /\ (forall x, dense_eval O l x = Ok 0 <-> In x xs) /\ exists q, expand O [p n] xs = Ok q /\ dense_eq O q l = Ok true) /\
  (forall m, let p := scoef R_ring (fun a => a) m in applies p -> swf m -> Forall (fun kv => (fst kv < 2 ^ 32)%N) m ->
     sparse_roots O S solver dfuel fuel m = Ok (ManyRealRoots xs) ->
     length xs = n /\ forall x, sparse_eval O m x = Ok 0 <-> In x xs).
Proof.
  intros chk cb rnd Hcb solver dfuel fuel n xs O S Hsol applies Hmax. split.
  - intros l p (Hd & Hn & Hi & H3) Hv Hr.
    assert (Hs : splits p n (map Cre xs)).
    { destruct (Nat.le_gt_cases n 3) as [K|K].
      - destruct (proj1 (C80_small_partial chk cb rnd Hcb solver dfuel fuel n) l) as (rs & Er & Es); [exact (Logic.conj Hd (Logic.conj (Logic.conj (proj1 Hn) K) (Logic.conj Hi H3)))|].
        fold O S in Er. rewrite Hr in Er. injection Er as <-. exact Es.
      - apply (proj1 (C80_large chk cb rnd solver dfuel fuel n xs Hsol) l); [|exact Hv|exact Hr]. split; [exact Hd|]. split; [lia|]. destruct Hi as [Hi|Hi]; [lia|exact Hi]. }
    split; [exact (proj1 (real_splits p n xs Hd Hs))|]. destruct (real_eval chk l n xs Hd Hs) as [A B]. split; [exact A|exact (B Hmax)].
  - intros m p (Hd & Hn & Hi & H3) W Hk Hr.
    assert (Hs : splits p n (map Cre xs)).
    { destruct (Nat.le_gt_cases n 3) as [K|K].
      - destruct (proj2 (C80_small_partial chk cb rnd Hcb solver dfuel fuel n) m W) as (rs & Er & Es); [exact (Logic.conj Hd (Logic.conj (Logic.conj (proj1 Hn) K) (Logic.conj Hi H3)))|].
        fold O S in Er. rewrite Hr in Er. injection Er as <-. exact Es.
      - apply (proj2 (C80_large chk cb rnd solver dfuel fuel n xs Hsol) m); [|exact W|exact Hk|apply (N.le_trans _ (N.of_nat n + 2)); [lia|exact Hmax]|exact Hr]. split; [exact Hd|]. split; [lia|]. destruct Hi as [Hi|Hi]; [lia|exact Hi]. }
    split; [exact (proj1 (real_splits p n xs Hd Hs))|]. exact (real_sparse_eval chk m n xs Hk Hd Hs).
Qed.

(** The remaining cubics (in particular those with three different real roots, C44): one of the reported
    roots does not evaluate to zero. *)
Theorem C87_cubic_refuted : forall chk cb rnd, (forall y, cb y ^ 3 = y) -> forall solver dfuel fuel l,
  let O := R_num chk in let S := R_rops cb rnd in let C := complex_num O in let p := dcoef R_ring (fun a => a) l in
  is_degree p (Some 3%nat) -> (exists i, (i < 3)%nat /\ p i <> 0) -> cD (p 3%nat) (p 2%nat) (p 1%nat) (p 0%nat) < 0 ->
  cubic (p 3%nat) (p 2%nat) (p 1%nat) (p 0%nat) (- p 2%nat / (3 * p 3%nat)) <> 0 ->
  exists rs zs z v, dense_roots O S solver dfuel fuel l = Ok rs /\ root_list rs = Some zs /\ In z zs /\
    dense_eval C (map Cre l) z = Ok v /\ v <> (0, 0).
Proof.
  intros chk cb rnd Hcb solver dfuel fuel l O S C p Hd Hi HD Hw.
  destruct (proj1 (C45_formula R O S R_ring (fun a => a) (R_lawful chk) solver dfuel fuel 3 (p 0%nat) (p 1%nat) (p 2%nat) (p 3%nat)) l Hd Hi
    eq_refl eq_refl eq_refl eq_refl) as (_ & _ & F). specialize (F eq_refl).
  destruct (C44_cubic_wrong chk cb rnd (p 3%nat) (p 2%nat) (p 1%nat) (p 0%nat) Hcb (proj1 Hd) HD Hw) as (x & Hx & HE).
  assert (E : exists rs zs, dense_roots O S solver dfuel fuel l = Ok rs /\ root_list rs = Some zs /\ In (x, 0) zs).
  { destruct HE as [(y & z & E)|(y & z & E)]; fold O S in E; rewrite F, E; cbn; eexists; eexists; (split; [reflexivity|]); (split; [reflexivity|]); left; reflexivity. }
  destruct E as (rs & zs & E1 & E2 & E3). exists rs, zs, (x, 0).
  pose proof (complex_lawful _ R_ring _ (R_lawful chk)) as LC. pose proof (complex_total _ (R_total chk)) as TC. fold O C in LC, TC.
  destruct (C12_dense_eval_returns _ C TC (map Cre l) (x, 0)) as (v & Ev). exists v. do 3 (split; [assumption|]). split; [exact Ev|]. intros ->.
  pose proof (C12_dense_eval _ _ _ _ LC _ _ _ Ev) as V. rewrite !cx_id in V.
  assert (W : is_value (over_C p) (x, 0) (0, 0)) by (apply (@is_value_ext (cx_ring R_ring) (dcoef (cx_ring R_ring) (cx_den (R := R_ring) (fun a => a)) (map Cre l))); [apply embed_coef|exact V]).
  pose proof (over_C_cubic p (x, 0) (fun d Hd' => proj2 Hd d Hd')) as U. pose proof (@is_value_fun C_ring _ _ _ _ W U) as K.
  unfold Cadd, Cmul, Cre in K. cbn [fst snd] in K. injection K as K _. apply Hx. unfold cubic. rewrite K. ring.
Qed.

(** x^2 - 2 x + 2: the roots are complex, both evaluate to zero, and they multiply back. *)
Example C87_case : forall chk rnd solver, let O := R_num chk in let S := R_rops Rcbrt rnd in let C := complex_num O in
  exists rs zs, dense_roots O S solver 0 0 [1; -2; 2] = Ok rs /\ root_list rs = Some zs /\ length zs = 2%nat /\
    dense_eval C (map Cre [1; -2; 2]) (1, 1) = Ok (0, 0) /\ In (1, 1) zs /\
    exists q, expand C [Cre 1] zs = Ok q /\ dense_eq C q (map Cre [1; -2; 2]) = Ok true.
Proof.
  intros chk rnd solver O S C.
  destruct (C87_small_partial chk Rcbrt rnd Rcbrt_spec solver 0 0 2 [1; -2; 2]) as (rs & zs & E & El & Hn & Hz & Hq).
  - split; [cbn; lra|]. intros d H. apply dcoef_overflow. cbn. lia.
  - lia.
  - right. exists 0%nat. split; [lia|]. cbn. lra.
  - discriminate.
  - exists rs, zs. split; [exact E|]. split; [exact El|]. split; [exact Hn|].
    assert (V : dense_eval C (map Cre [1; -2; 2]) (1, 1) = Ok (0, 0)).
    { unfold C, O, dense_eval, Cre. cbn. replace (Reqb 1 0) with false by (symmetry; apply Bool.not_true_iff_false; intros K; apply Reqb_iff in K; lra). cbn. do 2 f_equal; ring. }
    split; [exact V|]. split; [apply Hz; exact V|exact Hq].
Qed.

(** x (x - 1) (x - 3) = x^3 - 4 x^2 + 3 x *)
Example C87_cubic_case : cD 1 (-4) 3 0 < 0 /\ cubic 1 (-4) 3 0 (- (-4) / (3 * 1)) <> 0.
Proof. split; [unfold cD, cq, cr, cp; lra|unfold cubic; lra]. Qed.

Print Assumptions C87_small_partial.
Print Assumptions C87_real_partial.
Print Assumptions C87_cubic_refuted.
