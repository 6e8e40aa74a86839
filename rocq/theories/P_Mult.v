(** Property C80: roots() lists the roots with their multiplicities, real and complex alike.
    Arithmetic is exact here ([R_num]). *)

From Coq Require Import List NArith ZArith Reals Lia Lra Psatz Bool.
From Verif Require Import Base Num Spec SpecFacts Laws Terms Dense DenseFacts DenseMul Sparse SparseFacts Trino Roots RealNum RootFacts RootLoop.
From Verif Require Import P_Roots1 P_Roots3 P_Roots4.
Import ListNotations.
Local Open Scope R_scope.

(** ** Specification: complex numbers, and a polynomial splitting over them *)

Definition Copp (z : R * R) : R * R := (- fst z, - snd z).
Definition Csub (z w : R * R) : R * R := (fst z - fst w, snd z - snd w).

Lemma C_theory : ring_theory (Cre 0) (Cre 1) Cadd Cmul Csub Copp eq.
Proof.
  constructor; unfold Cadd, Cmul, Csub, Copp, Cre; intros; repeat match goal with z : (R * R)%type |- _ => destruct z end;
    cbn [fst snd]; f_equal; ring.
Qed.

Definition C_ring : comring := MkComring (R * R) (Cre 0) (Cre 1) Cadd Cmul Csub Copp C_theory.

(** The real polynomial [p] with complex coefficients. *)
Definition over_C (p : poly R_ring) : poly C_ring := fun i => Cre (p i).

Fixpoint cprod (z : R * R) (l : list (R * R)) : R * R :=
  match l with [] => Cre 1 | r :: l' => Cmul (Csub z r) (cprod z l') end.

(** [l] lists the roots of [p] (of degree [n]): [p] is its leading coefficient times the product
    of x - r for r in [l], and there are [n] of them. *)
Definition splits (p : poly R_ring) (n : nat) (l : list (R * R)) : Prop :=
  length l = n /\ forall z, is_value (over_C p) z (Cmul (Cre (p n)) (cprod z l)).

Definition lists_roots (p : poly R_ring) (n : nat) (rs : roots R) : Prop :=
  match rs with
  | ManyRealRoots l => splits p n (map Cre l)
  | ManyComplexRoots l => splits p n l
  | _ => False
  end.

(** ** Proof *)

Lemma cre_add a b : Cre (a + b) = Cadd (Cre a) (Cre b).
Proof. unfold Cre, Cadd. cbn. f_equal. ring. Qed.
Lemma cre_mul a b : Cre (a * b) = Cmul (Cre a) (Cre b).
Proof. unfold Cre, Cmul. cbn. f_equal; ring. Qed.

Lemma over_C_sum (f : nat -> R) n : Cre (@sumn R_ring f n) = @sumn C_ring (fun i => Cre (f i)) n.
Proof. induction n as [|n IH]; [reflexivity|]. cbn [sumn]. change (@radd R_ring) with Rplus. rewrite cre_add, IH. reflexivity. Qed.

Lemma over_C_mul (p q : poly R_ring) : peq (over_C (pmul p q)) (pmul (over_C p) (over_C q)).
Proof.
  intros d. unfold over_C, pmul. rewrite over_C_sum. apply sumn_ext. intros i _. apply cre_mul.
Qed.

Lemma over_C_rprod (l : list R) z : is_value (over_C (@rprod R_ring l)) z (cprod z (map Cre l)).
Proof.
  induction l as [|r l IH]; cbn [map cprod rprod].
  - apply (is_value_ext (@pone C_ring)); [|apply (@is_value_pone C_ring)]. intros [|d]; reflexivity.
  - apply (is_value_ext (pmul (over_C (@plin R_ring r)) (over_C (@rprod R_ring l)))); [intros d; symmetry; apply over_C_mul|].
    apply (@is_value_pmul C_ring); [|exact IH].
    apply (is_value_ext (@plin C_ring (Cre r))); [|apply (@plin_value C_ring)].
    intros d. unfold over_C. rewrite !plin_at. destruct d as [|[|d]]; cbn; unfold Copp, Cre; cbn; try reflexivity. f_equal. ring.
Qed.

Lemma over_C_const k z : is_value (over_C (@pmono R_ring k 0)) z (Cre k).
Proof.
  apply (is_value_ext (@pmono C_ring (Cre k) 0)); [intros [|d]; reflexivity|].
  pose proof (@is_value_pmono C_ring (Cre k) 0 z) as H. cbn [rpow] in H.
  replace (Cre k) with (@rmul C_ring (Cre k) r1) at 2; [exact H|]. cbn. unfold Cmul, Cre. cbn. f_equal; ring.
Qed.

(** A polynomial of degree at most 3 is the sum of its four terms. *)
Lemma over_C_cubic (p : poly R_ring) z : (forall d, (3 < d)%nat -> p d = 0) ->
  is_value (over_C p) z (Cadd (Cadd (Cadd (Cre (p 0%nat)) (Cmul (Cre (p 1%nat)) z)) (Cmul (Cre (p 2%nat)) (Cmul z z))) (Cmul (Cre (p 3%nat)) (Cmul z (Cmul z z)))).
Proof.
  intros H. exists 4%nat. split.
  - intros i Hi. unfold over_C. rewrite H by lia. reflexivity.
  - cbn. unfold over_C, Cadd, Cmul, Cre. destruct z as [u v]. cbn. f_equal; ring.
Qed.

Lemma splits_intro (p : poly R_ring) n l : length l = n -> (forall d, (3 < d)%nat -> p d = 0) ->
  (forall u v, let z := (u, v) in
    Cadd (Cadd (Cadd (Cre (p 0%nat)) (Cmul (Cre (p 1%nat)) z)) (Cmul (Cre (p 2%nat)) (Cmul z z))) (Cmul (Cre (p 3%nat)) (Cmul z (Cmul z z)))
    = Cmul (Cre (p n)) (cprod z l)) -> splits p n l.
Proof.
  intros Hl Hd H. split; [exact Hl|]. intros [u v]. rewrite <- (H u v). apply over_C_cubic, Hd.
Qed.

Lemma lin_splits (p : poly R_ring) r : (forall d, (1 < d)%nat -> p d = 0) -> p 0%nat = - (p 1%nat * r) -> splits p 1 [Cre r].
Proof.
  intros Hd H. apply splits_intro; [reflexivity|intros d K; apply Hd; lia|]. intros u v.
  rewrite (Hd 2%nat), (Hd 3%nat), H by lia. unfold Cadd, Cmul, Csub, Cre. cbn. f_equal; ring.
Qed.

Lemma quad_splits (p : poly R_ring) x y : (forall d, (2 < d)%nat -> p d = 0) ->
  Cmul (Cre (p 2%nat)) (Cadd x y) = Cre (- p 1%nat) -> Cmul (Cre (p 2%nat)) (Cmul x y) = Cre (p 0%nat) -> splits p 2 [x; y].
Proof.
  intros Hd H1 H0. apply splits_intro; [reflexivity|intros d K; apply Hd; lia|]. intros u v.
  rewrite (Hd 3%nat) by lia. destruct x as [xr xi], y as [yr yi]. unfold Cadd, Cmul, Csub, Cre in *. cbn in *.
  injection H1 as H1 H1'. injection H0 as H0 H0'. rewrite <- H0. replace (p 1%nat) with (- (- p 1%nat)) by ring. rewrite <- H1.
  assert (U : forall t, p 2%nat * (xi + yi) * t = 0) by (intros t; replace (p 2%nat * (xi + yi)) with 0 by lra; ring).
  pose proof (U u). pose proof (U v). f_equal; lra.
Qed.

Lemma cubic_real_splits (p : poly R_ring) x y w : (forall d, (3 < d)%nat -> p d = 0) ->
  (forall t, cubic (p 3%nat) (p 2%nat) (p 1%nat) (p 0%nat) t = p 3%nat * (t - x) * (t - y) * (t - w)) -> splits p 3 [Cre x; Cre y; Cre w].
Proof.
  intros Hd H. apply splits_intro; [reflexivity|exact Hd|]. intros u v.
  pose proof (H 0) as A0. pose proof (H 1) as A1. pose proof (H (-1)) as A2. unfold cubic in A0, A1, A2.
  assert (B0 : p 0%nat = - p 3%nat * (x * y * w)) by lra.
  assert (B2 : p 2%nat = - p 3%nat * (x + y + w)) by lra.
  assert (B1 : p 1%nat = p 3%nat * (x * y + y * w + w * x)) by lra.
  rewrite B0, B1, B2. unfold Cadd, Cmul, Csub, Cre. cbn. f_equal; ring.
Qed.

Lemma cubic_complex_splits (p : poly R_ring) x s t : (forall d, (3 < d)%nat -> p d = 0) ->
  (forall w, cubic (p 3%nat) (p 2%nat) (p 1%nat) (p 0%nat) w = p 3%nat * (w - x) * ((w - s) ^ 2 + t ^ 2)) -> splits p 3 [(x, 0); (s, t); (s, - t)].
Proof.
  intros Hd H. apply splits_intro; [reflexivity|exact Hd|]. intros u v.
  pose proof (H 0) as A0. pose proof (H 1) as A1. pose proof (H (-1)) as A2. unfold cubic in A0, A1, A2.
  assert (B0 : p 0%nat = - p 3%nat * x * (s * s + t * t)) by lra.
  assert (B2 : p 2%nat = - p 3%nat * (x + 2 * s)) by lra.
  assert (B1 : p 1%nat = p 3%nat * (2 * x * s + s * s + t * t)) by lra.
  rewrite B0, B1, B2. unfold Cadd, Cmul, Csub, Cre. cbn. f_equal; ring.
Qed.

(** The formulas on the coefficients of a polynomial. *)
Section Formulas.
Variables (chk : bool) (cb rnd : R -> R) (p : poly R_ring).

Lemma lin_lists : p 1%nat <> 0 -> (forall d, (1 < d)%nat -> p d = 0) ->
  exists rs, (m <- neg (R_num chk) (p 0%nat) ;; r <- div (R_num chk) m (p 1%nat) ;; Ok (ManyRealRoots [r])) = Ok rs /\ lists_roots p 1 rs.
Proof.
  intros Ha Hd. cbn -[lists_roots]. rewrite (proj2 (Reqb_false _ _) Ha). cbn [bind]. eexists. split; [reflexivity|].
  cbn. apply lin_splits; [exact Hd|]. assert (E : forall a b : R, a <> 0 -> b = - (a * (- b / a))) by (intros; field; assumption). apply E, Ha.
Qed.

Lemma quad_lists : p 2%nat <> 0 -> (forall d, (2 < d)%nat -> p d = 0) ->
  exists rs, many (trinomial_roots (R_num chk) (R_rops cb rnd) (p 2%nat) (p 1%nat) (p 0%nat)) = Ok rs /\ lists_roots p 2 rs.
Proof.
  intros Ha Hd. assert (E1 : forall a b : R, a <> 0 -> a * (b / a) = b) by (intros; field; assumption).
  destruct (Rle_dec 0 (p 1%nat * p 1%nat - 4 * p 2%nat * p 0%nat)) as [HD|HD].
  - destruct (C39_real_roots chk cb rnd (p 2%nat) (p 1%nat) (p 0%nat) Ha HD) as (x & y & E & _ & _ & Hs & Hp & _).
    unfold trino_roots in E. cbn [tc0 tc1 tc2] in E. rewrite E. cbn [many bind]. eexists. split; [reflexivity|].
    cbn. apply quad_splits; [exact Hd| |]; unfold Cmul, Cadd, Cre; cbn; f_equal; try ring.
    + replace (x + y) with (- p 1%nat / p 2%nat) by (symmetry; exact Hs). rewrite Rmult_0_l, Rminus_0_r. apply E1, Ha.
    + replace (x * y - 0 * 0) with (p 0%nat / p 2%nat) by (rewrite <- Hp; ring). rewrite Rmult_0_l, Rminus_0_r. apply E1, Ha.
  - destruct (C39_complex_roots chk cb rnd (p 2%nat) (p 1%nat) (p 0%nat) Ha ltac:(lra)) as (u & v & _ & E & _ & _ & Hs & Hp).
    unfold trino_roots in E. cbn [tc0 tc1 tc2] in E. rewrite E. cbn [many bind]. eexists. split; [reflexivity|].
    cbn. apply quad_splits; [exact Hd|rewrite Hs|rewrite Hp]; rewrite <- cre_mul; f_equal; apply E1, Ha.
Qed.

Lemma cubic_lists : (forall y, cb y ^ 3 = y) -> p 3%nat <> 0 -> (forall d, (3 < d)%nat -> p d = 0) ->
  0 <= cD (p 3%nat) (p 2%nat) (p 1%nat) (p 0%nat) \/ cubic (p 3%nat) (p 2%nat) (p 1%nat) (p 0%nat) (- p 2%nat / (3 * p 3%nat)) = 0 ->
  exists rs, many (cubic_roots (R_num chk) (R_rops cb rnd) (p 3%nat) (p 2%nat) (p 1%nat) (p 0%nat)) = Ok rs /\ lists_roots p 3 rs.
Proof.
  intros Hcb Ha Hd HD. destruct (C44_cubic_roots_partial chk cb rnd _ _ _ _ Hcb Ha HD) as (rs & E & H). rewrite E.
  destruct rs as [| | | |x y z| | | |[xr xi] [yr yi] [zr zi]| | |]; cbn in H; try contradiction; cbn [many bind]; eexists; (split; [reflexivity|]); cbn [lists_roots map].
  - apply cubic_real_splits; assumption.
  - destruct H as (-> & -> & -> & _ & H). apply cubic_complex_splits; assumption.
Qed.
End Formulas.

(** ** C80 *)

(** Degrees 1 to 3, other than c x^2 and c x^3 (below) and cubics for which the formula fails
    (C44): the answer lists all n roots, real or complex, each as often as it occurs. *)
Theorem C80_small_partial : forall chk cb rnd, (forall y, cb y ^ 3 = y) -> forall solver dfuel fuel n,
  let O := R_num chk in let S := R_rops cb rnd in
  let formula_applies (p : poly R_ring) :=
    is_degree p (Some n) /\ (1 <= n <= 3)%nat /\ (n = 1%nat \/ exists i, (i < n)%nat /\ p i <> 0) /\
    (n = 3%nat -> 0 <= cD (p 3%nat) (p 2%nat) (p 1%nat) (p 0%nat) \/
       cubic (p 3%nat) (p 2%nat) (p 1%nat) (p 0%nat) (- p 2%nat / (3 * p 3%nat)) = 0) in
  (forall l, let p := dcoef R_ring (fun a => a) l in formula_applies p ->
     exists rs, dense_roots O S solver dfuel fuel l = Ok rs /\ lists_roots p n rs) /\
  (forall m, let p := scoef R_ring (fun a => a) m in swf m -> formula_applies p ->
     exists rs, sparse_roots O S solver dfuel fuel m = Ok rs /\ lists_roots p n rs).
Proof.
  intros chk cb rnd Hcb solver dfuel fuel n O S fa. pose proof (R_lawful chk) as L.
  assert (One : forall p : poly R_ring, is_degree p (Some 1%nat) -> p 0%nat = 0 -> peq p (pmono (p 1%nat) 1)).
  { intros p [_ Hd] H0 [|[|d]]; unfold pmono; cbn; [exact H0|reflexivity|apply Hd; lia]. }
  assert (OneS : forall p : poly R_ring, is_degree p (Some 1%nat) -> p 0%nat = 0 -> lists_roots p 1 (ManyRealRoots [zero O])).
  { intros p [_ Hd] H0. cbn. apply (lin_splits p 0 Hd). rewrite H0, Rmult_0_r, Ropp_0. reflexivity. }
  assert (G : forall p r, fa p -> (n = 1%nat -> p 0%nat = 0 -> r = Ok (ManyRealRoots [zero O])) ->
    ((exists i, (i < n)%nat /\ p i <> 0) ->
     (n = 1%nat -> r = (m <- neg O (p 0%nat) ;; r <- div O m (p 1%nat) ;; Ok (ManyRealRoots [r]))) /\
     (n = 2%nat -> r = many (trinomial_roots O S (p 2%nat) (p 1%nat) (p 0%nat))) /\
     (n = 3%nat -> r = many (cubic_roots O S (p 3%nat) (p 2%nat) (p 1%nat) (p 0%nat)))) -> exists rs, r = Ok rs /\ lists_roots p n rs).
  { intros p r (Hd & Hn & Hc & H3) Hone HF.
    destruct (Req_dec (p 0%nat) 0) as [Z|Z].
    - destruct (Nat.eq_dec n 1) as [->|Hn1].
      + exists (ManyRealRoots [zero O]). split; [apply Hone; auto|]. apply OneS; assumption.
      + destruct Hc as [?|Hc]; [contradiction|]. destruct (HF Hc) as (_ & F2 & F3).
        assert (D : n = 2%nat \/ n = 3%nat) by lia. destruct D as [->| ->].
        * rewrite F2 by reflexivity. apply quad_lists; apply Hd.
        * rewrite F3 by reflexivity. apply cubic_lists; auto; apply Hd.
    - destruct HF as (F1 & F2 & F3); [exists 0%nat; split; [lia|exact Z]|].
      assert (D : n = 1%nat \/ n = 2%nat \/ n = 3%nat) by lia. destruct D as [->|[->| ->]].
      + rewrite F1 by reflexivity. apply lin_lists; apply Hd.
      + rewrite F2 by reflexivity. apply quad_lists; apply Hd.
      + rewrite F3 by reflexivity. apply cubic_lists; auto; apply Hd. }
  split.
  - intros l p Hf. apply G; [exact Hf| |].
    + intros -> H0. destruct (C45_classify R O S R_ring (fun a => a) L solver dfuel fuel) as (_ & K & _).
      apply (K l (p 1%nat) 1%nat); [apply Hf|]. apply One; [apply Hf|exact H0].
    + intros Hc. apply (proj1 (C45_formula R O S R_ring (fun a => a) L solver dfuel fuel n (p 0%nat) (p 1%nat) (p 2%nat) (p 3%nat))); try reflexivity; [apply Hf|exact Hc].
  - intros m p Hm Hf. apply G; [exact Hf| |].
    + intros -> H0. destruct (C45_classify R O S R_ring (fun a => a) L solver dfuel fuel) as (_ & _ & _ & K).
      apply (K m (p 1%nat) 1%nat); [exact Hm|apply Hf|]. apply One; [apply Hf|exact H0].
    + intros Hc. apply (proj2 (C45_formula R O S R_ring (fun a => a) L solver dfuel fuel n (p 0%nat) (p 1%nat) (p 2%nat) (p 3%nat))); try reflexivity; [exact Hm|apply Hf|exact Hc].
Qed.

Lemma rprod_lead (l : list R) : @rprod R_ring l (length l) = 1 /\ forall d, (length l < d)%nat -> @rprod R_ring l d = 0.
Proof.
  induction l as [|r l [I1 I2]]; cbn [rprod length].
  - split; [reflexivity|]. intros [|d] H; [lia|reflexivity].
  - assert (E : forall d, @pmul R_ring (@plin R_ring r) (@rprod R_ring l) (S d) = @rprod R_ring l d - r * @rprod R_ring l (S d)).
    { intros d. unfold plin. rewrite (@pmul_psub_l R_ring). unfold psub. rewrite !pmul_pmono_l. cbn [Nat.ltb Nat.leb]. 
      replace (S d - 1)%nat with d by lia. rewrite Nat.sub_0_r. cbn. ring. }
    split; [rewrite E, I1, I2 by lia; rewrite Rmult_0_r; apply Rminus_0_r|]. intros [|d] H; [lia|]. rewrite E, !I2 by lia. rewrite Rmult_0_r; apply Rminus_0_r.
Qed.

(** From degree 4 on, whatever eigenvalue solver is used, as long as what it returns are distinct
    roots: an answer of the kind "these are all roots" lists all n with multiplicity. *)
Theorem C80_large : forall chk cb rnd solver dfuel fuel n xs,
  let O := R_num chk in let S := R_rops cb rnd in
  (forall pass tl, NoDup (solver pass tl) /\ forall r, In r (solver pass tl) -> is_value (dcoef R_ring (fun a => a) (1 :: tl)) r 0) ->
  let applies (p : poly R_ring) := is_degree p (Some n) /\ (4 <= n < dfuel)%nat /\ exists i, (i < n)%nat /\ p i <> 0 in
  (forall l, applies (dcoef R_ring (fun a => a) l) -> vec_ok O l ->
     dense_roots O S solver dfuel fuel l = Ok (ManyRealRoots xs) -> splits (dcoef R_ring (fun a => a) l) n (map Cre xs)) /\
  (forall m, applies (scoef R_ring (fun a => a) m) -> swf m -> Forall (fun kv => (fst kv < 2 ^ 32)%N) m -> (N.of_nat n + 1 <= n_max_len O)%N ->
     sparse_roots O S solver dfuel fuel m = Ok (ManyRealRoots xs) -> splits (scoef R_ring (fun a => a) m) n (map Cre xs)).
Proof.
  intros chk cb rnd solver dfuel fuel n xs O S HS ap.
  assert (G : forall (p : poly R_ring) comp, is_degree p (Some n) -> @root_report R_ring R (fun a => a) p n comp (ManyRealRoots xs) -> splits p n (map Cre xs)).
  { intros p comp Hd (Hl & k & Hk & HP). rewrite map_id in HP. split; [rewrite map_length; exact Hl|]. intros z.
    assert (Lead : p n = k).
    { rewrite HP. rewrite <- Hl. rewrite pmul_pmono_l. cbn [Nat.ltb Nat.leb]. rewrite Nat.sub_0_r.
      rewrite (proj1 (rprod_lead xs)). cbn. ring. }
    rewrite Lead. apply (is_value_ext (pmul (over_C (@pmono R_ring k 0)) (over_C (@rprod R_ring xs)))).
    - intros d. rewrite <- over_C_mul. unfold over_C. rewrite HP. reflexivity.
    - apply (@is_value_pmul C_ring); [apply over_C_const|apply over_C_rprod]. }
  pose proof (C46_sound R O S R_ring (fun a => a) (R_lawful chk) (R_exact_div chk) (R_total chk)) as K.
  specialize (K ltac:(intros a; eexists; reflexivity) ltac:(cbn; lra) R_domain
    ltac:(intros a b a' b' Hb Ha' Hb'; cbn in *; inv_ok; apply Rltb_false; rewrite Hb, Rabs_R0; apply Rabs_pos)
    solver dfuel fuel n (ManyRealRoots xs) HS).
  destruct K as [K1 K2]. split.
  - intros l (Hd & [Hn Hf] & Hc) Hv E. eapply G; [exact Hd|]. apply K1; assumption.
  - intros m (Hd & [Hn Hf] & Hc) Hm Hk Hl E. eapply G; [exact Hd|]. apply K2; try assumption. intros a e. eexists. reflexivity.
Qed.

(** The other single terms: c x^k with k > 1 has the root 0 k times, and it is listed once. *)
Theorem C80_multiple_zero_refuted : forall chk cb rnd solver dfuel fuel c k, c <> 0 -> (2 <= k)%nat ->
  let O := R_num chk in let S := R_rops cb rnd in
  (forall l, let p := dcoef R_ring (fun a => a) l in peq p (pmono (c : car R_ring) k) ->
     exists rs, dense_roots O S solver dfuel fuel l = Ok rs /\ ~ lists_roots p k rs /\ splits p k (repeat (Cre 0) k)) /\
  (forall m, let p := scoef R_ring (fun a => a) m in swf m -> peq p (pmono (c : car R_ring) k) ->
     exists rs, sparse_roots O S solver dfuel fuel m = Ok rs /\ ~ lists_roots p k rs /\ splits p k (repeat (Cre 0) k)).
Proof.
  intros chk cb rnd solver dfuel fuel c k Hc Hk O S.
  destruct (C45_classify R O S R_ring (fun a => a) (R_lawful chk) solver dfuel fuel) as (_ & K1 & _ & K2).
  assert (W : forall p : poly R_ring, ~ lists_roots p k (ManyRealRoots [zero O])) by (intros p [H _]; cbn in H; lia).
  assert (G : forall p : poly R_ring, peq p (pmono (c : car R_ring) k) -> splits p k (repeat (Cre 0) k)).
  { intros p Hp. split; [apply repeat_length|]. intros z.
    assert (E : p k = c) by (rewrite Hp; unfold pmono; rewrite Nat.eqb_refl; reflexivity). rewrite E.
    apply (is_value_ext (@pmono C_ring (Cre c) k)).
    - intros d. unfold over_C. rewrite Hp. unfold pmono. destruct (Nat.eqb d k); reflexivity.
    - assert (Q : cprod z (repeat (Cre 0) k) = @rpow C_ring z k).
      { clear. induction k as [|k IH]; [reflexivity|]. cbn [repeat cprod rpow]. rewrite IH. cbn [rmul C_ring]. f_equal.
        destruct z. unfold Csub, Cre. cbn. f_equal; ring. }
      rewrite Q. apply (@is_value_pmono C_ring). }
  assert (E : Nat.eqb k 0 = false) by (apply Nat.eqb_neq; lia).
  split.
  - intros l p Hp. exists (ManyRealRoots [zero O]). split; [|split; [apply W|apply G, Hp]]. rewrite (K1 l c k Hc Hp), E. reflexivity.
  - intros m p Hm Hp. exists (ManyRealRoots [zero O]). split; [|split; [apply W|apply G, Hp]]. rewrite (K2 m c k Hm Hc Hp), E. reflexivity.
Qed.

(** x^2 - 2x + 1 and (x + 2)^3 meet the conditions, so the double and the triple root are listed
    two and three times; x^3 is listed with one root. *)
Example C80_case : forall chk rnd solver, let O := R_num chk in let S := R_rops Rcbrt rnd in
  (exists rs, dense_roots O S solver 0 0 [1; -2; 1] = Ok rs /\ lists_roots (dcoef R_ring (fun a => a) [1; -2; 1]) 2 rs) /\
  (exists rs, dense_roots O S solver 0 0 [1; 6; 12; 8] = Ok rs /\ lists_roots (dcoef R_ring (fun a => a) [1; 6; 12; 8]) 3 rs) /\
  (exists rs, dense_roots O S solver 0 0 [1; 0; 0; 0] = Ok rs /\ ~ lists_roots (dcoef R_ring (fun a => a) [1; 0; 0; 0]) 3 rs).
Proof.
  intros chk rnd solver O S. split; [|split].
  - apply (proj1 (C80_small_partial chk Rcbrt rnd Rcbrt_spec solver 0 0 2)). split; [|split; [lia|split; [|lia]]].
    + split; [cbn; lra|]. intros d H. apply dcoef_overflow. cbn. lia.
    + right. exists 0%nat. split; [lia|]. cbn. lra.
  - apply (proj1 (C80_small_partial chk Rcbrt rnd Rcbrt_spec solver 0 0 3)). split; [|split; [lia|split]].
    + split; [cbn; lra|]. intros d H. apply dcoef_overflow. cbn. lia.
    + right. exists 0%nat. split; [lia|]. cbn. lra.
    + intros _. left. exact C44_partial_case.
  - destruct (proj1 (C80_multiple_zero_refuted chk Rcbrt rnd solver 0 0 1 3 ltac:(lra) ltac:(lia)) [1; 0; 0; 0]) as (rs & E & H & _).
    + intros [|[|[|[|d]]]]; try reflexivity. apply dcoef_overflow. cbn. lia.
    + exists rs. split; assumption.
Qed.

Print Assumptions C80_small_partial.
Print Assumptions C80_large.
Print Assumptions C80_multiple_zero_refuted.
