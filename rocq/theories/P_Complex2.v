(** Property C85, continued: sparse polynomials with complex coefficients. *)

From Coq Require Import List NArith ZArith Reals Lia Lra Bool Arith Sorted QArith Qcanon.
From Coq Require Import ZifyBool ZifyNat ZifyN.
From Verif Require Import Base Num Spec SpecFacts Laws Terms Dense DenseFacts DenseMul DenseDiv DenseDivInt DenseCalcInt Sparse SparseFacts SparseArith Coef Mono.
From Verif Require Import RealNum Complex Sim SimSparse P_Sim1 P_Dense1 P_Dense2 P_Sparse1 P_Sparse2 P_Degree P_DegreeScale SpecDegree P_Complex.
Import ListNotations.

(** Powers and multiples. (Evaluation of sparse polynomials needs PowUsize, which complex numbers do
    not implement, numerics.rs 84-121.) *)
Theorem C85_sparse_power : forall T (O : num T) R den, lawful O R den -> let C := complex_num O in
  let P (m : bmap (T * T)) : poly (cx_ring R) := fun d => (s_re R den m d, s_im R den m d) in
  (forall fuel m e r, swf m -> n_chk O = true \/ (exists n, pbound (P m) n /\ (n * e <= USIZE_MAX)%N) -> sparse_pow C fuel m e = Ok r ->
     peq (P r) (ppow (P m) (N.to_nat e))) /\
  (forall m c r, swf m -> sparse_scale C m c = Ok r \/ sparse_scale_assign C m c = Ok r -> peq (P r) (pscale (P m) (cx_den den c))).
Proof.
  intros T O R den L C P. pose proof (complex_lawful O R den L) as LC. fold C in LC.
  assert (E : forall m, peq (scoef (cx_ring R) (cx_den den) m) (P m)) by (intros m d; apply parts_sparse).
  split.
  - intros fuel m e r Hm Hk H.
    assert (Hk' : n_chk C = true \/ (exists n, pbound (scoef (cx_ring R) (cx_den den) m) n /\ (n * e <= USIZE_MAX)%N)).
    { destruct Hk as [Hk|(n & Hn & Hl)]; [left; exact Hk|right; exists n; split; [|exact Hl]]. intros d Hd. rewrite (E m d). apply Hn, Hd. }
    pose proof (proj2 (C10_sparse_pow _ _ _ _ LC _ _ _ _ Hm Hk' H)) as K. eapply peq_trans; [apply peq_sym, E|]. eapply peq_trans; [exact K|].
    apply ppow_ext, E.
  - intros m c r Hm H. pose proof (proj2 (C11_sparse_scale _ _ _ _ LC _ _ _ Hm H)) as K. intros d. rewrite <- (E r d), (K d). unfold pscale. rewrite (E m d). reflexivity.
Qed.

(** Degrees of products add, of powers multiply; a non-zero multiple has the same degree. *)
Theorem C85_sparse_degree : forall T (O : num T) R den, lawful O R den -> domain R -> real_like R -> r1 <> @r0 R -> let C := complex_num O in
  (n_chk O = true -> forall a b r, swf a -> swf b -> sparse_mul C a b = Ok r -> sdeg C r = deg_add (sdeg C a) (sdeg C b)) /\
  (n_chk O = true -> forall fuel p e r, swf p -> sparse_pow C fuel p e = Ok r -> sdeg C r = deg_mul (N.to_nat e) (sdeg C p)) /\
  (forall a c r, swf a -> is_zero C c = false -> sparse_scale C a c = Ok r \/ sparse_scale_assign C a c = Ok r -> sdeg C r = sdeg C a).
Proof.
  intros T O R den L D S H10 C. assert (K : @r1 (cx_ring R) <> r0) by (intros E; injection E; exact H10).
  destruct (C74_sparse _ C _ _ (complex_lawful _ _ _ L)) as (A1 & A2 & _). split; [|split].
  - intros Hc a b r Ha Hb H. apply (A1 (cx_domain _ D S) a b r Ha Hb (or_introl Hc) H).
  - intros Hc fuel p e r Hp H. apply (A2 (cx_domain _ D S) K fuel p e r Hp (or_introl Hc) H).
  - intros a c r. apply (C74_sparse_scale _ C _ _ (complex_lawful _ _ _ L) (cx_domain _ D S)).
Qed.

(** Sparse Gaussian integers: whatever div_mod and % return satisfies the division equation. They
    return only if the degree of the dividend is at most that of the divisor (C22). *)
Theorem C85_sparse_div_mod : forall t, let C := complex_num (int_num true t) in let P := scoef (cx_ring Z_ring) (cx_den (R := Z_ring) ival) in
  (forall fuel p d q r, swf p -> swf d -> sparse_div_mod C fuel p d = Ok (q, r) -> euclid (P p) (P d) (P q) (P r)) /\
  (forall fuel p d r, swf p -> swf d -> sparse_rem C fuel p d = Ok r -> exists q, pfin q /\ euclid (P p) (P d) q (P r)) /\
  (forall fuel p d n k, swf p -> swf d -> is_degree (P p) (Some n) -> is_degree (P d) (Some k) -> (k < n)%nat ->
     (forall qr, sparse_div_mod C fuel p d <> Ok qr) /\ (forall r, sparse_rem C fuel p d <> Ok r)).
Proof.
  intros t C P. pose proof (complex_lawful _ _ _ (checked_lawful t)) as LC. split; [|split].
  - intros fuel p d q r Hp Hd H. apply (C22_sparse_div_mod_partial _ C _ _ LC (gauss_nice t) _ _ _ _ _ Hp Hd H).
  - intros fuel p d r Hp Hd H. apply (C22_sparse_rem_partial _ C _ _ LC (gauss_nice t) _ _ _ _ Hp Hd H).
  - intros fuel p d n k Hp Hd Hn Hk Hlt. apply (C22_sparse_never _ C _ _ LC fuel p d n k Hp Hd Hn Hk Hlt).
Qed.

Local Open Scope Z_scope.
(** The square of (1+2i)x + 3 and its multiple by i; (2+4i)x^2 + 3 divided by (1+2i)x^2 + x. *)
Example C85_sparse_case :
  let t := I32 in let C := complex_num (int_num true t) in let z a b := (mk_int t a, mk_int t b) in
  let show r := match r with Ok l => Some (map (fun kv => (fst kv, ival (fst (snd kv)), ival (snd (snd kv)))) l) | _ => None end in
  let p := [(0%N, z 3 0); (1%N, z 1 2)] in
  swf p /\ sdeg C p = Some 1%nat /\ show (sparse_pow C 9 p 2) = Some [(0%N, 9, 0); (1%N, 6, 12); (2%N, -3, 4)] /\
  show (sparse_scale C p (z 0 1)) = Some [(0%N, 0, 3); (1%N, -2, 1)] /\
  show (qr <- sparse_div_mod C 5 [(0%N, z 3 0); (2%N, z 2 4)] [(1%N, z 1 0); (2%N, z 1 2)] ;; Ok (fst qr)) = Some [(0%N, 2, 0)].
Proof.
  intros t C z show p. split; [|vm_compute; repeat split].
  split; [repeat constructor; unfold key_lt; cbn [fst]; lia|repeat constructor; cbn [fst]; unfold USIZE_MAX; lia].
Qed.

Print Assumptions C85_sparse_power.
Print Assumptions C85_sparse_degree.
Print Assumptions C85_sparse_div_mod.
