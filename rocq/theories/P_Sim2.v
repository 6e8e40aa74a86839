(** Property C58: an optimised build returns what a checked build returns. *)

From Coq Require Import String List NArith ZArith Reals Lia Lra Bool Arith.
From Coq Require Import ZifyBool ZifyNat ZifyN.
From Flocq Require Import Core BinarySingleNaN.
From Verif Require Import Base Num Terms Dense Sparse Mono Bino Trino ArrPoly PolyMath Strs Integr Roots.
From Verif Require Import Floats Upcast Sim SimSparse SimFixed SimText SimInst SimRoots.
Import ListNotations.

(** [kept x y]: whatever [x] returns, [y] returns.  [num_of true] is arithmetic with overflow checks
    (debug), [num_of false] without (release); [a] is any of the primitive number types. *)
Theorem C58_dense : forall powi a,
  let D := num_of true powi a in let R := num_of false powi a in
  forall p q c,
  kept (dense_new D p) (dense_new R p) /\
  dense_degree R p = dense_degree D p /\
  kept (dense_terms D p) (dense_terms R p) /\
  kept (dense_eq D p q) (dense_eq R p q) /\
  kept (dense_add D p q) (dense_add R p q) /\
  kept (dense_add_assign D p q) (dense_add_assign R p q) /\
  kept (dense_sub_assign D p q) (dense_sub_assign R p q) /\
  kept (dense_sub_assign_ref D p q) (dense_sub_assign_ref R p q) /\
  kept (dense_neg D p) (dense_neg R p) /\
  kept (dense_mul D p q) (dense_mul R p q) /\
  kept (dense_mul_ref D p q) (dense_mul_ref R p q) /\
  kept (dense_scale D p c) (dense_scale R p c) /\
  kept (dense_scale_assign D p c) (dense_scale_assign R p c) /\
  kept (dense_div_scalar D p c) (dense_div_scalar R p c) /\
  kept (dense_div_scalar_assign D p c) (dense_div_scalar_assign R p c) /\
  kept (dense_eval D p c) (dense_eval R p c) /\
  ((len p <= USIZE_MAX)%N -> kept (dense_derivative D p) (dense_derivative R p) /\ kept (dense_integral D p) (dense_integral R p)) /\
  (forall d, kept (term_with_deg D p d) (term_with_deg R p d)) /\
  (forall d, kept (dense_add_term D p c d) (dense_add_term R p c d)) /\
  (forall d, kept (dense_try_add_term D p c d) (dense_try_add_term R p c d)) /\
  (forall d, kept (dense_try_sub_term D p c d) (dense_try_sub_term R p c d)) /\
  (forall ts, kept (dense_from_terms D ts) (dense_from_terms R ts)) /\
  (forall fuel e, kept (dense_pow D fuel p e) (dense_pow R fuel p e)) /\
  (forall fuel left k, kept (dense_shift D fuel left p k) (dense_shift R fuel left p k)) /\
  (forall fuel left k, kept (dense_shift_assign D fuel left p k) (dense_shift_assign R fuel left p k)) /\
  (forall fuel, kept (dense_div_mod D fuel p q) (dense_div_mod R fuel p q)) /\
  (forall fuel, kept (dense_floor_div D fuel p q) (dense_floor_div R fuel p q)) /\
  (forall fuel, kept (dense_rem D fuel p q) (dense_rem R fuel p q)) /\
  (forall fuel, kept (dense_rem_assign D fuel p q) (dense_rem_assign R fuel p q)) /\
  (forall s e, kept (dense_integral_eval D p s e) (dense_integral_eval R p s e)).
Proof.
  intros powi a D R p q c. pose proof (release_sim powi a) as S. pose proof (release_sim_div powi a) as V.
  assert (can_negate D = can_negate R) as N by (unfold D, R; destruct a; reflexivity).
  split; [kep @sim_dense_new|]. split; [symmetry; eapply (@sim_degree _ _ D R eq false); rfl|]. split; [kep @sim_dense_terms|].
  split; [kep @sim_dense_eq|]. split; [kep @sim_dense_add|]. split; [kep @sim_dense_add_assign|].
  split; [kep @sim_dense_sub_assign|]. split; [kep @sim_dense_sub_assign_ref|]. split; [kep @sim_dense_neg|].
  split; [kep @sim_dense_mul|]. split; [kep @sim_dense_mul_ref|]. split; [kep @sim_dense_scale|].
  split; [kep @sim_dense_scale_assign|]. split; [kep @sim_dense_div_scalar|]. split; [kep @sim_dense_div_scalar_assign|].
  split; [kep @sim_dense_eval|]. split; [intros; split; [kep @sim_dense_derivative|kep @sim_dense_integral]|].
  split; [intros; kep @sim_term_with_deg|]. split; [intros; kep @sim_dense_add_term|]. split; [intros; kep @sim_dense_try_add_term|].
  split; [intros; kep @sim_dense_try_sub_term|]. split; [intros; kep @sim_dense_from_terms|]. split; [intros; kep @sim_dense_pow|].
  split; [intros; kep @sim_dense_shift|]. split; [intros; kep @sim_dense_shift_assign|]. split; [intros; kep @sim_dense_div_mod|].
  split; [intros; kep @sim_dense_floor_div|]. split; [intros; kep @sim_dense_rem|]. split; [intros; kep @sim_dense_rem_assign|].
  intros; kep @sim_dense_integral_eval.
Qed.

Theorem C58_sparse : forall powi a,
  let D := num_of true powi a in let R := num_of false powi a in
  forall p q c,
  sparse_degree R p = sparse_degree D p /\
  sparse_terms R p = sparse_terms D p /\
  sparse_eq R p q = sparse_eq D p q /\
  kept (sparse_add D p q) (sparse_add R p q) /\
  kept (sparse_add_assign D p q) (sparse_add_assign R p q) /\
  kept (sparse_sub D p q) (sparse_sub R p q) /\
  kept (sparse_neg D p) (sparse_neg R p) /\
  kept (sparse_mul D p q) (sparse_mul R p q) /\
  kept (sparse_scale D p c) (sparse_scale R p c) /\
  kept (sparse_scale_assign D p c) (sparse_scale_assign R p c) /\
  kept (sparse_div_scalar D p c) (sparse_div_scalar R p c) /\
  kept (sparse_div_scalar_assign D p c) (sparse_div_scalar_assign R p c) /\
  kept (sparse_eval D p c) (sparse_eval R p c) /\
  kept (sparse_integral D p) (sparse_integral R p) /\
  ((forall k v, In (k, v) p -> (k <= USIZE_MAX)%N) -> kept (sparse_derivative D p) (sparse_derivative R p)) /\
  (forall d, sparse_term_with_degree R p d = sparse_term_with_degree D p d) /\
  (forall d, kept (sparse_add_term D p c d) (sparse_add_term R p c d)) /\
  (forall d, kept (sparse_try_add_term D p c d) (sparse_try_add_term R p c d)) /\
  (forall d, kept (sparse_try_sub_term D p c d) (sparse_try_sub_term R p c d)) /\
  (forall ts, kept (sparse_from_terms D ts) (sparse_from_terms R ts)) /\
  (forall l, kept (sparse_from_vec D l) (sparse_from_vec R l)) /\
  (forall l, kept (sparse_sub_dense D p l) (sparse_sub_dense R p l)) /\
  (forall fuel e, kept (sparse_pow D fuel p e) (sparse_pow R fuel p e)) /\
  (forall fuel left k, kept (sparse_shift D fuel left p k) (sparse_shift R fuel left p k)) /\
  (forall fuel, kept (sparse_div_mod D fuel p q) (sparse_div_mod R fuel p q)) /\
  (forall fuel, kept (sparse_rem D fuel p q) (sparse_rem R fuel p q)) /\
  (forall s e, kept (sparse_integral_eval D p s e) (sparse_integral_eval R p s e)).
Proof.
  intros powi a D R p q c. pose proof (release_sim powi a) as S. pose proof (release_sim_div powi a) as V.
  pose proof (release_sim_upow powi a) as U.
  assert (can_negate D = can_negate R) as N by (unfold D, R; destruct a; reflexivity).
  split; [symmetry; eapply (@sim_sparse_degree _ _ D R eq false); rfl|].
  split; [symmetry; eapply f2_eq; [apply term_eq|eapply (@sim_sparse_terms _ _ D R eq false); rfl]|].
  split; [symmetry; eapply (@sim_sparse_eq _ _ D R eq false); rfl|].
  split; [kep @sim_sparse_add|]. split; [kep @sim_sparse_add_assign|]. split; [kep @sim_sparse_sub|]. split; [kep @sim_sparse_neg|].
  split; [kep @sim_sparse_mul|]. split; [kep @sim_sparse_scale|]. split; [kep @sim_sparse_scale_assign|].
  split; [kep @sim_sparse_div_scalar|]. split; [kep @sim_sparse_div_scalar_assign|]. split; [kep @sim_sparse_eval|].
  split; [kep @sim_sparse_integral|]. split; [intros; kep @sim_sparse_derivative|].
  split; [intros; symmetry; apply Term_eq; eapply (@sim_sparse_term_with_degree _ _ D R eq false); rfl|].
  split; [intros; kep @sim_sparse_add_term|]. split; [intros; kep @sim_sparse_try_add_term|].
  split; [intros; kep @sim_sparse_try_sub_term|]. split; [intros; kep @sim_sparse_from_terms|]. split; [intros; kep @sim_sparse_from_vec|].
  split; [intros; kep @sim_sparse_sub_dense|]. split; [intros; kep @sim_sparse_pow|]. split; [intros; kep @sim_sparse_shift|].
  split; [intros; kep @sim_sparse_div_mod|]. split; [intros; kep @sim_sparse_rem|]. intros; kep @sim_sparse_integral_eval.
Qed.

Theorem C58_fixed : forall powi a,
  let D := num_of true powi a in let R := num_of false powi a in
  (forall (p q : mono (ncar a)) c,
     mono_degree R p = mono_degree D p /\ mono_terms R p = mono_terms D p /\ mono_eq R p q = mono_eq D p q /\
     kept (mono_neg D p) (mono_neg R p) /\ kept (mono_mul D p q) (mono_mul R p q) /\ kept (mono_scale D p c) (mono_scale R p c) /\
     kept (mono_div_scalar D p c) (mono_div_scalar R p c) /\ kept (mono_eval D p c) (mono_eval R p c) /\
     kept (mono_integral D p) (mono_integral R p) /\
     ((mdeg p <= USIZE_MAX)%N -> kept (mono_derivative D p) (mono_derivative R p)) /\
     (forall e, kept (mono_pow D p e) (mono_pow R p e)) /\
     (forall fuel left k, kept (mono_shift D fuel left p k) (mono_shift R fuel left p k)) /\
     (forall d, kept (mono_try_add_term D p c d) (mono_try_add_term R p c d)) /\
     (forall d, kept (mono_try_sub_term D p c d) (mono_try_sub_term R p c d))) /\
  (forall (p q : bino (ncar a)) c,
     bino_degree R p = bino_degree D p /\ bino_eq R p q = bino_eq D p q /\ bino_derivative R p = bino_derivative D p /\
     kept (bino_terms D p) (bino_terms R p) /\ kept (bino_add D p q) (bino_add R p q) /\ kept (bino_sub D p q) (bino_sub R p q) /\
     kept (bino_neg D p) (bino_neg R p) /\ kept (bino_scale D p c) (bino_scale R p c) /\
     kept (bino_div_scalar D p c) (bino_div_scalar R p c) /\ kept (bino_eval D p c) (bino_eval R p c) /\
     kept (bino_integral D p) (bino_integral R p) /\ (forall k, bino_shr R p k = bino_shr D p k) /\
     (forall d, kept (bino_try_add_term D p c d) (bino_try_add_term R p c d)) /\
     (forall d, kept (bino_try_sub_term D p c d) (bino_try_sub_term R p c d))) /\
  (forall (p q : trino (ncar a)) c,
     trino_degree R p = trino_degree D p /\ trino_eq R p q = trino_eq D p q /\
     kept (trino_terms D p) (trino_terms R p) /\ kept (trino_add D p q) (trino_add R p q) /\ kept (trino_sub D p q) (trino_sub R p q) /\
     kept (trino_neg D p) (trino_neg R p) /\ kept (trino_scale D p c) (trino_scale R p c) /\
     kept (trino_div_scalar D p c) (trino_div_scalar R p c) /\ kept (trino_eval D p c) (trino_eval R p c) /\
     kept (trino_derivative D p) (trino_derivative R p) /\
     kept (trino_integral D p) (trino_integral R p) /\ (forall k, trino_shr R p k = trino_shr D p k) /\
     (forall d, kept (trino_try_add_term D p c d) (trino_try_add_term R p c d)) /\
     (forall d, kept (trino_try_sub_term D p c d) (trino_try_sub_term R p c d))) /\
  (forall (p q : list (ncar a)) c,
     arr_eq R p q = arr_eq D p q /\
     ((len p <= USIZE_MAX)%N -> kept (arr_derivative D p) (arr_derivative R p) /\ kept (arr_integral D p) (arr_integral R p)) /\
     (forall d, kept (arr_try_add_term D p c d) (arr_try_add_term R p c d)) /\
     (forall d, kept (arr_try_sub_term D p c d) (arr_try_sub_term R p c d))).
Proof.
  intros powi a D R. pose proof (release_sim powi a) as S. pose proof (release_sim_div powi a) as V.
  pose proof (release_sim_upow powi a) as U. split; [|split; [|split]]; intros p q c.
  - split; [symmetry; eapply (@sim_mono_degree _ _ D R eq false); rfl|].
    split; [symmetry; eapply f2_eq; [apply term_eq|eapply (@sim_mono_terms _ _ D R eq false); rfl]|].
    split; [symmetry; eapply (@sim_mono_eq _ _ D R eq false); rfl|]. split; [kep @sim_mono_neg|]. split; [kep @sim_mono_mul|].
    split; [kep @sim_mono_scale|]. split; [kep @sim_mono_div_scalar|]. split; [kep @sim_mono_eval|]. split; [kep @sim_mono_integral|].
    split; [intros; kep @sim_mono_derivative|]. split; [intros; kep @sim_mono_pow|]. split; [intros; kep @sim_mono_shift|].
    split; intros; [kep @sim_mono_try_add_term|kep @sim_mono_try_sub_term].
  - split; [symmetry; eapply (@sim_bino_degree _ _ D R eq false); rfl|].
    split; [symmetry; eapply (@sim_bino_eq _ _ D R eq false); rfl|].
    split; [symmetry; apply bino_eq_rel; eapply (@sim_bino_derivative _ _ D R eq false); rfl|].
    split; [kep @sim_bino_terms|]. split; [kep @sim_bino_add|]. split; [kep @sim_bino_sub|]. split; [kep @sim_bino_neg|].
    split; [kep @sim_bino_scale|]. split; [kep @sim_bino_div_scalar|]. split; [kep @sim_bino_eval|]. split; [kep @sim_bino_integral|].
    split; [intros; symmetry; apply bino_eq_rel; eapply (@sim_bino_shr _ _ D R eq false); rfl|].
    split; intros; [kep @sim_bino_try_add_term|kep @sim_bino_try_sub_term].
  - split; [symmetry; eapply (@sim_trino_degree _ _ D R eq false); rfl|].
    split; [symmetry; eapply (@sim_trino_eq _ _ D R eq false); rfl|].
    split; [kep @sim_trino_terms|]. split; [kep @sim_trino_add|]. split; [kep @sim_trino_sub|]. split; [kep @sim_trino_neg|].
    split; [kep @sim_trino_scale|]. split; [kep @sim_trino_div_scalar|]. split; [kep @sim_trino_eval|]. split; [kep @sim_trino_derivative|].
    split; [kep @sim_trino_integral|].
    split; [intros; symmetry; apply trino_eq_rel; eapply (@sim_trino_shr _ _ D R eq false); rfl|].
    split; intros; [kep @sim_trino_try_add_term|kep @sim_trino_try_sub_term].
  - split; [symmetry; eapply (@sim_arr_eq _ _ D R eq false); rfl|].
    split; [intros; split; [kep @sim_arr_derivative|kep @sim_arr_integral]|].
    split; intros; [kep @sim_arr_try_add_term|kep @sim_arr_try_sub_term].
Qed.

(** Display and FromStr, for any text conversion [X] of the coefficients; parsing errors are kept too. *)
Theorem C58_text : forall powi a (X : txt (ncar a)),
  let D := num_of true powi a in let R := num_of false powi a in
  (forall p, kept (dense_show D X p) (dense_show R X p)) /\ (forall p, kept (sparse_show D X p) (sparse_show R X p)) /\
  (forall p, kept (bino_show D X p) (bino_show R X p)) /\ (forall p, kept (trino_show D X p) (trino_show R X p)) /\
  (forall p, mono_show R X p = mono_show D X p) /\
  (forall s, kept (dense_from_str D X s) (dense_from_str R X s)) /\ (forall s, kept (sparse_from_str D X s) (sparse_from_str R X s)) /\
  (forall s, kept (mono_from_str D X s) (mono_from_str R X s)) /\ (forall s, kept (bino_from_str D X s) (bino_from_str R X s)) /\
  (forall s, kept (trino_from_str D X s) (trino_from_str R X s)).
Proof.
  intros powi a X D R. pose proof (release_sim powi a) as S.
  assert (HX : forall x y, x = y -> show X x = show X y) by (intros; subst; reflexivity).
  split; [intros; kep @sim_dense_show|]. split; [intros; kep @sim_sparse_show|]. split; [intros; kep @sim_bino_show|].
  split; [intros; kep @sim_trino_show|]. split; [intros; symmetry; eapply (@sim_mono_show _ _ D R eq false); rfl|].
  assert (Z : zero R = zero D) by (symmetry; apply (sm_zero _ _ _ _ S)).
  split; [|split; [|split; [|split]]]; intros s.
  - unfold dense_from_str. eapply kept_poly_from_str; [exact S|]. intros. cbn. kep @sim_dense_try_add_term.
  - unfold sparse_from_str. eapply kept_poly_from_str; [exact S|]. intros. cbn. kep @sim_sparse_try_add_term.
  - unfold mono_from_str, mono_zero. rewrite Z. eapply kept_poly_from_str; [exact S|]. intros. cbn. kep @sim_mono_try_add_term.
  - unfold bino_from_str, bino_zero. rewrite Z. eapply kept_poly_from_str; [exact S|]. intros. cbn. kep @sim_bino_try_add_term.
  - unfold trino_from_str, trino_zero. rewrite Z. eapply kept_poly_from_str; [exact S|]. intros. cbn. kep @sim_trino_try_add_term.
Qed.

(** Root finding, with the same external solver [solver] and square/cube roots [K]. *)
Theorem C58_roots : forall powi a (K : rops (ncar a)),
  let D := num_of true powi a in let R := num_of false powi a in
  (forall solver dfuel fuel p, kept (dense_roots D K solver dfuel fuel p) (dense_roots R K solver dfuel fuel p)) /\
  (forall solver dfuel fuel p, kept (sparse_roots D K solver dfuel fuel p) (sparse_roots R K solver dfuel fuel p)) /\
  (forall p, mono_root R p = mono_root D p) /\ (forall p, kept (bino_root D p) (bino_root R p)) /\
  (forall p, kept (trino_roots D K p) (trino_roots R K p)) /\
  (forall p, kept (trino_complex_factors D K p) (trino_complex_factors R K p)) /\
  (forall p, kept (trino_real_factors D K p) (trino_real_factors R K p)).
Proof.
  intros powi a K D R. pose proof (release_sim powi a) as S. pose proof (release_sim_div powi a) as V.
  pose proof (release_sim_upow powi a) as U. repeat split; intros.
  - apply kept_dense_roots; assumption.
  - apply kept_sparse_roots; assumption.
  - apply eq_mono_root; assumption.
  - apply kept_bino_root; assumption.
  - apply kept_trino_roots; assumption.
  - apply kept_trino_complex_factors; assumption.
  - apply kept_trino_real_factors; assumption.
Qed.

(** The converse fails: a release build also returns (wrapped) where a debug build panics. *)
Theorem C58_converse_refuted : forall powi, exists p q : list (int I8),
  ~ kept (dense_mul (num_of false powi (NI I8)) p q) (dense_mul (num_of true powi (NI I8)) p q).
Proof.
  intros powi. exists [mk_int I8 100], [mk_int I8 2]. intros H.
  destruct (dense_mul (num_of false powi (NI I8)) [mk_int I8 100] [mk_int I8 2]) as [v| |] eqn:E;
    [|vm_compute in E; discriminate E..].
  specialize (H v eq_refl). vm_compute in H. discriminate H.
Qed.

Example C58_dense_case : forall chk,
  rmap (map ival) (dense_mul (int_num chk I8) (map (mk_int I8) [3; -7]%Z) (map (mk_int I8) [5; 0; 18]%Z)) = Ok [15; -35; 54; -126]%Z.
Proof. intros []; vm_compute; reflexivity. Qed.
Example C58_sparse_case : forall chk,
  rmap (map (fun kv => (fst kv, ival (snd kv)))) (sparse_derivative (int_num chk U8) [(0%N, mk_int U8 9); (5%N, mk_int U8 50)]) = Ok [(4%N, 250%Z)].
Proof. intros []; vm_compute; reflexivity. Qed.
Example C58_fixed_case : forall chk,
  rmap ival (trino_eval (int_num chk I16) (MkTrino (mk_int I16 (-2)) (mk_int I16 3) (mk_int I16 100)) (mk_int I16 9)) = Ok (-35)%Z.
Proof. intros []; vm_compute; reflexivity. Qed.
Example C58_text_case : forall chk,
  dense_show (int_num chk I32) (int_txt I32) (map (mk_int I32) [1; -2; 0; 7]%Z) = Ok (lit "x^3 - 2x^2 + 7"%string).
Proof. intros []; vm_compute; reflexivity. Qed.
Example C58_roots_case : forall chk powi,
  match bino_root (float_num chk F64 powi) (MkBino (f_of_Z F64 2) (f_of_Z F64 (-6))) with Ok (OneRealRoot r) => B2SF r = B2SF (f_of_Z F64 3) | _ => False end.
Proof. intros [] powi; vm_compute; reflexivity. Qed.
