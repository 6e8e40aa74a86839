(** Properties C02-C05, C10, C11, C23-C25 of sparse polynomials ([SparsePolynomial<N>]).

    [scoef R den m] is the polynomial summing the stored terms; [swf m] says the map has
    strictly increasing usize keys, which every operation preserves.  Zero coefficients may
    be stored. *)

From Coq Require Import List NArith ZArith Lia Bool Arith QArith Qcanon Sorted.
From Coq Require Import ZifyBool ZifyNat ZifyN.
From Verif Require Import Base Num Spec SpecFacts Laws Terms Dense.
From Verif Require Import DenseFacts DenseArith DenseMul DenseCalc DenseShift DenseDiv DenseMut Wrap.
From Verif Require Import Sparse SparseFacts SparseArith SparseCalc SparseDiv.
From Verif Require Import P_Dense1 P_Dense2.
Import ListNotations.
Local Close Scope Qc_scope.
Local Close Scope Q_scope.

(** A sparse polynomial over an integer type from (degree, coefficient) pairs. *)
Definition smap (t : ity) (l : list (N * Z)) : bmap (int t) := map (fun kv => (fst kv, mk_int t (snd kv))) l.
Definition sread {t} (m : bmap (int t)) : list (N * Z) := map (fun kv => (fst kv, ival (snd kv))) m.

(** Wrapping integers against exact ones. *)
Lemma scoef_wred t (m : bmap (int t)) :
  peq (@scoef (int t) (w_ring t) (fun a => a) m) (wred t (scoef Z_ring ival m)).
Proof.
  induction m as [|[k v] m IH]; intros d.
  - unfold wred. rewrite !scoef_nil. reflexivity.
  - unfold wred. rewrite !scoef_cons. unfold padd. rewrite IH. unfold wred. cbn [radd Z_ring]. rewrite wadd_hom.
    change (w_add t) with (@radd (w_ring t)). f_equal. unfold pmono. destruct (Nat.eqb d (N.to_nat k)); [|reflexivity].
    symmetry. apply mk_int_ival.
Qed.

Lemma scoef_in_range t (m : bmap (int t)) d : StronglySorted key_lt m -> in_range t (scoef Z_ring ival m d) = true.
Proof.
  intros H. rewrite scoef_get by exact H. destruct (m_get (N.of_nat d) m) as [v|]; [apply ival_ok|].
  apply in_range_iff. pose proof (imin_max t). simpl. lia.
Qed.

Lemma swred_result t (m : bmap (int t)) p : swf m ->
  peq (@scoef (int t) (w_ring t) (fun a => a) m) (wred t p) -> forall d, scoef Z_ring ival m d = wrap t (p d).
Proof.
  intros Hm H d. specialize (H d). rewrite scoef_wred in H. unfold wred in H.
  apply (f_equal ival) in H. rewrite ival_mk_int in H by (apply scoef_in_range, Hm). exact H.
Qed.

(** ** C02 *)

Theorem C02_sparse_degree : forall T (O : num T) R den, lawful O R den -> forall m, swf m ->
  is_degree (scoef R den m) (dn (sparse_degree O m)) /\
  (sparse_is_zero O m = true <-> peq (scoef R den m) pzero).
Proof.
  intros T O R den L m Hm. pose proof (sparse_degree_spec O R den L m (proj1 Hm)) as H. split; [exact H|].
  unfold sparse_is_zero, degree_is_zero. destruct (sparse_degree O m) as [|n]; simpl in *.
  - split; auto.
  - split; [discriminate|]. intros H0. destruct H as [H _]. exfalso. apply H, H0.
Qed.

Example C02_sparse_case : sparse_degree (int_num true I32) (smap I32 [(0%N, 5%Z); (7%N, 2%Z); (9%N, 0%Z)]) = Num 7
  /\ swf (smap I32 [(0%N, 5%Z); (7%N, 2%Z); (9%N, 0%Z)]).
Proof.
  split; [vm_compute; reflexivity|]. unfold swf, key_lt. split; repeat constructor; simpl; unfold USIZE_MAX; try lia.
Qed.

(** ** C03 *)

Theorem C03_sparse_listing : forall T (O : num T) R den, lawful O R den -> forall m, swf m ->
  is_listing (scoef R den m) (dterms R den (sparse_terms O m)) /\
  forall c d, In (c, d) (sparse_terms O m) <-> (den c <> r0 /\ scoef R den m (N.to_nat d) = den c).
Proof.
  intros T O R den L m Hm. pose proof (sparse_terms_spec O R den L m (proj1 Hm)) as H2. split; [exact H2|].
  intros c d. split.
  - intros H. assert (I : In (den c, d) (dterms R den (sparse_terms O m))) by (apply in_map_iff; exists (c, d); auto).
    apply (is_listing_in _ _ _ _ H2) in I. tauto.
  - intros H. apply (is_listing_in _ _ (den c) d H2) in H. apply in_map_iff in H.
    destruct H as ([c' d'] & E & I). injection E as E1 E2. apply (lw_inj _ _ _ L) in E1. subst. exact I.
Qed.

(** Dense and sparse polynomials with the same coefficients list the same terms. *)
Theorem C03_dense_sparse_listing : forall T (O : num T) R den, lawful O R den -> forall m l ts, swf m ->
  peq (scoef R den m) (dcoef R den l) -> dense_terms O l = Ok ts -> sparse_terms O m = ts.
Proof.
  intros T O R den L m l ts Hm E Hts. destruct (dense_terms_spec O R den L l) as (ts' & H1 & H2 & _).
  assert (ts' = ts) by congruence. subst ts'.
  pose proof (sparse_terms_spec O R den L m (proj1 Hm)) as H3.
  assert (D : dterms R den (sparse_terms O m) = dterms R den ts).
  { apply (is_listing_unique (scoef R den m)); [exact H3|]. eapply is_listing_ext; [|exact H2]. apply peq_sym, E. }
  revert D. generalize (sparse_terms O m). clear -L. induction ts as [|[c d] ts IH]; intros [|[c' d'] l'] D; try discriminate; auto.
  injection D as D1 D2 D3. apply (lw_inj _ _ _ L) in D1. subst. f_equal. apply IH, D3.
Qed.

Example C03_sparse_case : map (fun t => (ival (fst t), snd t))
    (sparse_terms (int_num true I32) (smap I32 [(0%N, 5%Z); (4%N, 0%Z); (7%N, (-2)%Z)])) = [((-2)%Z, 7%N); (5%Z, 0%N)].
Proof. vm_compute. reflexivity. Qed.

(** ** C04 *)

Theorem C04_sparse_term_with_degree : forall T (O : num T) R den, lawful O R den -> forall m d, swf m ->
  match sparse_term_with_degree O m d with
  | ZeroTerm => scoef R den m (N.to_nat d) = r0
  | TTerm c k => k = d /\ den c <> r0 /\ scoef R den m (N.to_nat d) = den c
  end.
Proof.
  intros T O R den L m d Hm. pose proof (sparse_term_with_degree_spec O R den L m d (proj1 Hm)) as H.
  destruct (sparse_term_with_degree O m d) as [|c k]; [exact H|]. destruct H as (A & B & C).
  split; [exact A|]. split; [apply (is_zero_false_den O R den L), B|exact C].
Qed.

Example C04_sparse_case : sparse_term_with_degree (int_num true I32) (smap I32 [(0%N, 5%Z); (4%N, 0%Z); (7%N, (-2)%Z)]) 4 = ZeroTerm
  /\ sparse_term_with_degree (int_num true I32) (smap I32 [(0%N, 5%Z); (4%N, 0%Z); (7%N, (-2)%Z)]) 7 = TTerm (mk_int I32 (-2)) 7.
Proof. split; vm_compute; reflexivity. Qed.

(** ** C05 *)

Theorem C05_sparse_eq : forall T (O : num T) R den, lawful O R den -> forall a b, swf a -> swf b ->
  sparse_eq O a b = true <-> peq (scoef R den a) (scoef R den b).
Proof. intros T O R den L a b Ha Hb. apply (sparse_eq_spec O R den L); [apply Ha|apply Hb]. Qed.

Example C05_sparse_case : sparse_eq (int_num true I8) (smap I8 [(1%N, 0%Z); (3%N, 4%Z)]) (smap I8 [(3%N, 4%Z); (9%N, 0%Z)]) = true
  /\ sparse_eq (int_num true I8) (smap I8 [(1%N, 0%Z); (3%N, 4%Z)]) (smap I8 [(2%N, 4%Z)]) = false.
Proof. split; vm_compute; reflexivity. Qed.

(** ** C11 *)

Theorem C11_sparse_scale : forall T (O : num T) R den, lawful O R den -> forall m c r, swf m ->
  sparse_scale O m c = Ok r \/ sparse_scale_assign O m c = Ok r ->
  swf r /\ peq (scoef R den r) (pscale (scoef R den m) (den c)).
Proof. exact @sparse_scale_spec. Qed.

Theorem C11_sparse_scale_returns : forall T (O : num T) R den fits, lawful O R den -> fits_ops O R den fits ->
  forall m c, swf m ->
  ((exists r, sparse_scale O m c = Ok r) <-> forall d, fits (pscale (scoef R den m) (den c) d)) /\
  ((exists r, sparse_scale_assign O m c = Ok r) <-> forall d, fits (pscale (scoef R den m) (den c) d)).
Proof. intros T O R den fits L F. exact (sparse_scale_returns O R den L fits F). Qed.

(** Division by a scalar divides every stored coefficient; with exact division multiplying
    back gives the polynomial. *)
Theorem C11_sparse_div : forall T (O : num T) m c r, swf m ->
  sparse_div_scalar O m c = Ok r \/ sparse_div_scalar_assign O m c = Ok r ->
  swf r /\ Forall2 (fun a b => fst a = fst b /\ div O (snd a) c = Ok (snd b)) m r.
Proof.
  intros T O m c r Hm H. rewrite (sparse_div_scalar_same O m c Hm) in H.
  apply (sparse_div_scalar_spec O m c r Hm). tauto.
Qed.

Theorem C11_sparse_div_exact : forall T (O : num T) R den, lawful O R den -> exact_div O R den -> forall m c r, swf m ->
  is_zero O c = false -> sparse_div_scalar O m c = Ok r \/ sparse_div_scalar_assign O m c = Ok r ->
  peq (pscale (scoef R den r) (den c)) (scoef R den m).
Proof.
  intros T O R den L X m c r Hm Hc H. rewrite (sparse_div_scalar_same O m c Hm) in H.
  apply (sparse_div_scalar_exact O R den X m c r Hm Hc). tauto.
Qed.

Example C11_sparse_case :
  rmap sread (sparse_scale (int_num true I8) (smap I8 [(0%N, 5%Z); (7%N, (-2)%Z)]) (mk_int I8 (-3))) = Ok [(0%N, (-15)%Z); (7%N, 6%Z)]
  /\ rmap sread (sparse_div_scalar (int_num true I8) (smap I8 [(0%N, 5%Z); (7%N, (-3)%Z)]) (mk_int I8 2)) = Ok [(0%N, 2%Z); (7%N, (-1)%Z)].
Proof. split; vm_compute; reflexivity. Qed.

(** ** C23 *)

Theorem C23_sparse_add : forall T (O : num T) R den, lawful O R den -> forall a b r, swf a -> swf b ->
  sparse_add O a b = Ok r \/ sparse_add_assign O a b = Ok r ->
  swf r /\ peq (scoef R den r) (padd (scoef R den a) (scoef R den b)).
Proof.
  intros T O R den L a b r Ha Hb [H|H].
  - eapply sparse_add_spec; eassumption.
  - eapply sparse_add_assign_spec; eassumption.
Qed.

Theorem C23_sparse_sub : forall T (O : num T) R den, lawful O R den -> forall a b r, swf a -> swf b ->
  sparse_sub O a b = Ok r -> swf r /\ peq (scoef R den r) (psub (scoef R den a) (scoef R den b)).
Proof. exact @sparse_sub_spec. Qed.

Theorem C23_sparse_neg : forall T (O : num T) R den, lawful O R den -> forall a r, swf a ->
  sparse_neg O a = Ok r -> swf r /\ peq (scoef R den r) (popp (scoef R den a)).
Proof. exact @sparse_neg_spec. Qed.

Theorem C23_sparse_sub_dense : forall T (O : num T) R den, lawful O R den -> forall a b r, swf a -> vec_ok O b ->
  sparse_sub_dense O a b = Ok r -> swf r /\ peq (scoef R den r) (psub (scoef R den a) (dcoef R den b)).
Proof. exact @sparse_sub_dense_spec. Qed.

(** They return exactly when every coefficient of the result is representable. *)
Theorem C23_sparse_returns : forall T (O : num T) R den fits, lawful O R den -> fits_ops O R den fits ->
  forall a b, swf a -> swf b ->
  ((exists r, sparse_add O a b = Ok r) <-> forall d, fits (padd (scoef R den a) (scoef R den b) d)) /\
  ((exists r, sparse_add_assign O a b = Ok r) <-> forall d, fits (padd (scoef R den a) (scoef R den b) d)) /\
  ((exists r, sparse_sub O a b = Ok r) <-> forall d, fits (psub (scoef R den a) (scoef R den b) d)) /\
  ((exists r, sparse_neg O a = Ok r) <-> forall d, fits (popp (scoef R den a) d)).
Proof.
  intros T O R den fits L F a b Ha Hb.
  split; [apply (sparse_add_returns O R den L fits F); assumption|].
  split; [apply (sparse_add_assign_returns O R den L fits F); assumption|].
  split; [apply (sparse_sub_returns O R den L fits F); assumption|apply (sparse_neg_returns O R den L fits F); assumption].
Qed.

Theorem C23_sparse_int_wrapping : forall t (a b : bmap (int t)), swf a -> swf b ->
  (exists r, sparse_add (int_num false t) a b = Ok r /\
     forall d, scoef Z_ring ival r d = wrap t (scoef Z_ring ival a d + scoef Z_ring ival b d)) /\
  (exists r, sparse_sub (int_num false t) a b = Ok r /\
     forall d, scoef Z_ring ival r d = wrap t (scoef Z_ring ival a d - scoef Z_ring ival b d)).
Proof.
  intros t a b Ha Hb. pose proof (C23_sparse_returns _ _ _ _ _ (wrapping_lawful t) (total_fits _ _ _ (wrapping_total t)) a b Ha Hb) as (H1 & _ & H3 & _).
  destruct (proj2 H1 (fun _ => Logic.I)) as (r & Hr). destruct (proj2 H3 (fun _ => Logic.I)) as (s & Hs). split.
  - exists r. split; [exact Hr|].
    destruct (C23_sparse_add _ _ _ _ (wrapping_lawful t) a b r Ha Hb (or_introl Hr)) as [W E].
    apply (swred_result t r (padd (scoef Z_ring ival a) (scoef Z_ring ival b)) W).
    intros d. rewrite E, wred_padd. unfold padd. rewrite !scoef_wred. reflexivity.
  - exists s. split; [exact Hs|].
    destruct (C23_sparse_sub _ _ _ _ (wrapping_lawful t) a b s Ha Hb Hs) as [W E].
    apply (swred_result t s (psub (scoef Z_ring ival a) (scoef Z_ring ival b)) W).
    intros d. rewrite E, wred_psub. unfold psub. rewrite !scoef_wred. reflexivity.
Qed.

Example C23_case :
  rmap sread (sparse_add (int_num true I8) (smap I8 [(0%N, 5%Z); (7%N, (-2)%Z)]) (smap I8 [(3%N, 1%Z); (7%N, 2%Z)])) = Ok [(0%N, 5%Z); (3%N, 1%Z); (7%N, 0%Z)]
  /\ rmap sread (sparse_sub (int_num true I8) (smap I8 [(0%N, 5%Z); (7%N, (-2)%Z)]) (smap I8 [(3%N, 1%Z); (7%N, 2%Z)])) = Ok [(0%N, 5%Z); (3%N, (-1)%Z); (7%N, (-4)%Z)]
  /\ rmap sread (sparse_sub_dense (int_num true I8) (smap I8 [(0%N, 5%Z); (7%N, (-2)%Z)]) (map (mk_int I8) [1; 0; 3]%Z)) = Ok [(0%N, 2%Z); (2%N, (-1)%Z); (7%N, (-2)%Z)]
  /\ sparse_sub (int_num true I8) (smap I8 []) (smap I8 [(3%N, (-128)%Z)]) = Panic POverflow.
Proof. repeat split; vm_compute; reflexivity. Qed.

(** ** C24 *)

(** [pbound p n]: no term above degree [n].  Without overflow checks on usize the degrees
    must add up to at most usize::MAX (see C52). *)
Theorem C24_sparse_mul : forall T (O : num T) R den, lawful O R den -> forall a b r, swf a -> swf b ->
  n_chk O = true \/ (exists na nb, pbound (scoef R den a) na /\ pbound (scoef R den b) nb /\ (na + nb <= USIZE_MAX)%N) ->
  sparse_mul O a b = Ok r -> swf r /\ peq (scoef R den r) (pmul (scoef R den a) (scoef R den b)).
Proof. exact @sparse_mul_spec. Qed.

(** The product of the same polynomials in dense form. *)
Theorem C24_dense_sparse_agree : forall T (O : num T) R den, lawful O R den -> forall a b l k r s,
  swf a -> swf b -> vec_ok O l -> vec_ok O k ->
  peq (scoef R den a) (dcoef R den l) -> peq (scoef R den b) (dcoef R den k) ->
  sparse_mul O a b = Ok r -> dense_mul O l k = Ok s -> peq (scoef R den r) (dcoef R den s).
Proof.
  intros T O R den L a b l k r s Ha Hb Hl Hk Ea Eb Hr Hs.
  assert (B : forall m v, vec_ok O v -> peq (scoef R den m) (dcoef R den v) -> pbound (scoef R den m) (2 ^ 63 - 1)).
  { intros m v Hv E i Hi. rewrite E. apply dcoef_overflow. pose proof (lw_cap _ _ _ L). unfold vec_ok, len in Hv. lia. }
  destruct (C24_sparse_mul T O R den L a b r Ha Hb) as [_ E]; auto.
  - right. exists (2 ^ 63 - 1)%N, (2 ^ 63 - 1)%N. split; [apply (B a l); auto|]. split; [apply (B b k); auto|]. unfold USIZE_MAX. lia.
  - eapply peq_trans; [exact E|]. eapply peq_trans; [apply pmul_ext; eassumption|]. apply peq_sym.
    eapply dense_mul_coef; eassumption.
Qed.

(** With total arithmetic it returns whenever no degree sum overflows. *)
Theorem C24_sparse_mul_returns : forall T (O : num T), total_ops O -> forall a b,
  (forall j x k y, In (j, x) a -> In (k, y) b -> (j + k <= USIZE_MAX)%N) -> exists r, sparse_mul O a b = Ok r.
Proof.
  intros T O HT a b H. apply (sparse_mul_total O HT). intros _ k v [j x] Hk Hj. simpl. specialize (H j x k v Hj Hk). lia.
Qed.

Theorem C24_sparse_mul_int_wrapping : forall t (a b : bmap (int t)), swf a -> swf b ->
  (forall j x k y, In (j, x) a -> In (k, y) b -> (j + k <= USIZE_MAX)%N) ->
  (exists na nb, pbound (scoef Z_ring ival a) na /\ pbound (scoef Z_ring ival b) nb /\ (na + nb <= USIZE_MAX)%N) ->
  exists r, sparse_mul (int_num false t) a b = Ok r /\
    forall d, scoef Z_ring ival r d = wrap t (pmul (scoef Z_ring ival a) (scoef Z_ring ival b) d).
Proof.
  intros t a b Ha Hb Hd (na & nb & Pa & Pb & Hn). destruct (C24_sparse_mul_returns _ _ (wrapping_total t) a b Hd) as (r & Hr).
  exists r. split; [exact Hr|].
  assert (PW : forall m n, pbound (scoef Z_ring ival m) n -> pbound (@scoef (int t) (w_ring t) (fun a => a) m) n).
  { intros m n P i Hi. rewrite scoef_wred. unfold wred. rewrite P by exact Hi. reflexivity. }
  destruct (C24_sparse_mul _ _ _ _ (wrapping_lawful t) a b r Ha Hb) as [W E]; auto.
  { right. exists na, nb. auto. }
  apply (swred_result t r (pmul (scoef Z_ring ival a) (scoef Z_ring ival b)) W).
  intros d. rewrite E, wred_pmul. apply (@pmul_ext (w_ring t)); apply scoef_wred.
Qed.

Example C24_case :
  rmap sread (sparse_mul (int_num true I8) (smap I8 [(0%N, 1%Z); (5%N, 2%Z)]) (smap I8 [(0%N, (-1)%Z); (3%N, 0%Z); (5%N, 2%Z)])) = Ok [(0%N, (-1)%Z); (5%N, 0%Z); (10%N, 4%Z)].
Proof. vm_compute. reflexivity. Qed.

(** ** C10 *)

Theorem C10_sparse_pow : forall T (O : num T) R den, lawful O R den -> forall fuel p e r, swf p ->
  n_chk O = true \/ (exists n, pbound (scoef R den p) n /\ (n * e <= USIZE_MAX)%N) ->
  sparse_pow O fuel p e = Ok r -> swf r /\ peq (scoef R den r) (ppow (scoef R den p) (N.to_nat e)).
Proof. intros T O R den L fuel p e r. exact (sparse_pow_spec O R den L fuel p e r). Qed.

(** The recursion ends after at most [pow_fuel e] levels. *)
Theorem C10_sparse_pow_terminates : forall T (O : num T), prompt O -> forall fuel p e,
  (pow_fuel e <= fuel)%nat -> sparse_pow O fuel p e <> Fuel.
Proof. exact @sparse_pow_prompt. Qed.

Theorem C10_sparse_pow_int_wrapping : forall t fuel (p : bmap (int t)) e n, swf p ->
  pbound (scoef Z_ring ival p) n -> (n * e <= USIZE_MAX)%N -> (pow_fuel e <= fuel)%nat ->
  exists r, sparse_pow (int_num false t) fuel p e = Ok r /\
    forall d, scoef Z_ring ival r d = wrap t (ppow (scoef Z_ring ival p) (N.to_nat e) d).
Proof.
  intros t fuel p e n Hp Pp Hn Hf.
  destruct (sparse_pow_total (int_num false t) (wrapping_total t) eq_refl fuel p e) as (r & Hr).
  { apply sparse_pow_prompt; [apply int_prompt|exact Hf]. }
  exists r. split; [exact Hr|].
  destruct (C10_sparse_pow _ _ _ _ (wrapping_lawful t) fuel p e r Hp) as [W E]; auto.
  { right. exists n. split; [|exact Hn]. intros i Hi. rewrite scoef_wred. unfold wred. rewrite Pp by exact Hi. reflexivity. }
  apply (swred_result t r (ppow (scoef Z_ring ival p) (N.to_nat e)) W).
  intros d. rewrite E, wred_ppow. apply (@ppow_ext (w_ring t)), scoef_wred.
Qed.

Example C10_sparse_case :
  rmap sread (sparse_pow (int_num true I32) (pow_fuel 5) (smap I32 [(0%N, 1%Z); (3%N, 2%Z)]) 5)
    = Ok [(0%N, 1%Z); (3%N, 10%Z); (6%N, 40%Z); (9%N, 80%Z); (12%N, 80%Z); (15%N, 32%Z)].
Proof. vm_compute. reflexivity. Qed.

(** ** C25 *)

Theorem C25_from_vec : forall T (O : num T) R den, lawful O R den -> forall l, vec_ok O l ->
  exists m v ts, sparse_from_vec O l = Ok m /\ dense_new O l = Ok v /\ dense_terms O v = Ok ts /\ sparse_terms O m = ts /\
    swf m /\ peq (scoef R den m) (dcoef R den l) /\ peq (dcoef R den v) (dcoef R den l).
Proof.
  intros T O R den L l Hv. destruct (sparse_from_vec_spec O R den L l Hv) as (m & H1 & H2 & H3 & _).
  destruct (C01_new_keeps_coefficients T O R den L l) as (v & V1 & V2 & _).
  destruct (C03_dense_listing T O R den L v) as (ts & T1 & _).
  exists m, v, ts. split; [exact H1|]. split; [exact V1|]. split; [exact T1|]. split; [|auto].
  apply (C03_dense_sparse_listing T O R den L m v ts H2); [|exact T1].
  eapply peq_trans; [exact H3|]. apply peq_sym, V2.
Qed.

(** [terms_coef ts d] is the sum of the coefficients given for degree [d]. *)
Theorem C25_from_terms : forall T (O : num T) R den, lawful O R den -> forall ts,
  Forall (fun t => (snd t <= USIZE_MAX)%N) ts ->
  (forall r, dense_from_terms O ts = Ok r -> peq (dcoef R den r) (terms_coef (dterms R den ts))) /\
  (forall r, sparse_from_terms O ts = Ok r -> swf r /\ peq (scoef R den r) (terms_coef (dterms R den ts))).
Proof.
  intros T O R den L ts Hts. split; intros r H.
  - eapply (dense_from_terms_spec O R den L ts r); eassumption.
  - eapply sparse_from_terms_spec; eassumption.
Qed.

Theorem C25_from_terms_returns : forall T (O : num T), total_ops O -> forall ts,
  (exists r, sparse_from_terms O ts = Ok r) /\
  (Forall (fun t => (snd t + 1 <= n_max_len O)%N) ts -> forall R den, lawful O R den -> exists r, dense_from_terms O ts = Ok r).
Proof.
  intros T O HT ts. split; [apply sparse_from_terms_total, HT|]. intros Hts R den L.
  apply (dense_from_terms_total O R den L HT ts Hts).
Qed.

Example C25_case :
  let ts := map (fun t => (mk_int I32 (fst t), snd t)) [(3%Z, 4%N); (1%Z, 0%N); ((-1)%Z, 4%N); (0%Z, 9%N)] in
  rmap (map ival) (dense_from_terms (int_num true I32) ts) = Ok [0; 0; 0; 0; 0; 2; 0; 0; 0; 1]%Z /\
  rmap sread (sparse_from_terms (int_num true I32) ts) = Ok [(0%N, 1%Z); (4%N, 2%Z)] /\
  rmap sread (sparse_from_vec (int_num true I32) (i32s [0; 3; 0; 1]%Z)) = Ok [(0%N, 1%Z); (2%N, 3%Z)].
Proof. repeat split; vm_compute; reflexivity. Qed.
