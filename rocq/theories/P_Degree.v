(** C74 (degrees of results), C75 (remainder and factor theorems) and C76 (values determine a
    polynomial), all through the API. *)

From Coq Require Import List NArith ZArith Lia Bool Arith QArith Qcanon FinFun.
From Coq Require Import ZifyBool ZifyNat ZifyN.
From Flocq Require Import Core BinarySingleNaN.
From Verif Require Import Base Num Spec SpecFacts Laws Terms Dense Sparse.
From Verif Require Import DenseFacts DenseArith DenseMul DenseCalc DenseCalcInt DenseShift DenseDiv DenseDivInt SparseFacts SparseArith SparseCalc.
From Verif Require Import Floats Wrap P_Dense1 P_Dense2 P_Sparse1 P_Sparse2 SpecDegree.
Import ListNotations.
Local Close Scope Qc_scope.
Local Close Scope Q_scope.
Local Open Scope nat_scope.

(** Degrees as reported by degree(): [None] for NegInf. *)
Definition ddeg {T} (O : num T) (l : list T) : option nat := dn (dense_degree O l).
Definition sdeg {T} (O : num T) (m : bmap T) : option nat := dn (sparse_degree O m).

Section Read.
Context {T} (O : num T) (R : comring) (den : T -> car R) (L : lawful O R den).

Lemma ddeg_is l p g : peq (dcoef R den l) p -> is_degree p g -> ddeg O l = g.
Proof. intros E H. apply (is_degree_unique (dcoef R den l)); [apply (dense_degree_spec O R den L)|]. eapply is_degree_ext; [apply peq_sym, E|exact H]. Qed.
Lemma ddeg_of l : is_degree (dcoef R den l) (ddeg O l).
Proof. apply (dense_degree_spec O R den L). Qed.
Lemma sdeg_is m p g : swf m -> peq (scoef R den m) p -> is_degree p g -> sdeg O m = g.
Proof. intros W E H. apply (is_degree_unique (scoef R den m)); [apply (sparse_degree_spec O R den L), W|]. eapply is_degree_ext; [apply peq_sym, E|exact H]. Qed.
Lemma sdeg_of m : swf m -> is_degree (scoef R den m) (sdeg O m).
Proof. intros W. apply (sparse_degree_spec O R den L), W. Qed.
End Read.

(** ** C74 *)

(** Integral domain: deg (a b) = deg a + deg b, deg a^e = e deg a, and scaling by a non-zero value keeps the degree. *)
Theorem C74_dense_product : forall T (O : num T) R den, lawful O R den -> domain R -> r1 <> @r0 R ->
  (forall a b r, vec_ok O a -> vec_ok O b -> dense_mul O a b = Ok r \/ dense_mul_ref O a b = Ok r -> ddeg O r = deg_add (ddeg O a) (ddeg O b)) /\
  (forall fuel p e r, (1 <= n_max_len O)%N -> vec_ok O p -> dense_pow O fuel p e = Ok r -> ddeg O r = deg_mul (N.to_nat e) (ddeg O p)) /\
  (forall a c r, is_zero O c = false -> dense_scale O a c = Ok r \/ dense_scale_assign O a c = Ok r -> ddeg O r = ddeg O a).
Proof.
  intros T O R den L HD H10. split; [|split].
  - intros a b r Ha Hb H. apply (ddeg_is O R den L r _ _ (C08_dense_mul T O R den L a b r Ha Hb H)). apply (pmul_degree HD); apply ddeg_of, L.
  - intros fuel p e r Hc Hp H. apply (ddeg_is O R den L r _ _ (C10_dense_pow T O R den L Hc fuel p e r Hp H)). apply (ppow_degree HD H10), ddeg_of, L.
  - intros a c r Hc H. apply (ddeg_is O R den L r _ _ (C11_dense_scale T O R den L a c r H)). apply (pscale_degree HD); [|apply ddeg_of, L].
    apply (is_zero_false_den O R den L), Hc.
Qed.

(** Any ring: a sum or difference has at most the larger degree, and exactly that if the degrees differ. *)
Theorem C74_dense_sum : forall T (O : num T) R den, lawful O R den -> forall a b r,
  dense_add O a b = Ok r \/ dense_add_assign O a b = Ok r \/ dense_sub O a b = Ok r \/ dense_sub_assign O a b = Ok r \/ dense_sub_assign_ref O a b = Ok r ->
  deg_le (ddeg O r) (deg_max (ddeg O a) (ddeg O b)) /\ (ddeg O a <> ddeg O b -> ddeg O r = deg_max (ddeg O a) (ddeg O b)).
Proof.
  intros T O R den L a b r H.
  assert (K : dense_add O a b = Ok r \/ dense_add_assign O a b = Ok r \/ (dense_sub O a b = Ok r \/ dense_sub_assign O a b = Ok r \/ dense_sub_assign_ref O a b = Ok r)) by tauto.
  destruct K as [K|[K|K]].
  - apply (sum_degree (@radd R)) with (a := dcoef R den a) (b := dcoef R den b); try (apply ddeg_of, L).
    + apply radd_0_l. + intros x Hx. rewrite radd_0_r in Hx. exact Hx. + intros x Hx. rewrite radd_0_l in Hx. exact Hx.
    + eapply is_degree_ext; [apply (C06_dense_add T O R den L a b r (or_introl K))|apply ddeg_of, L].
  - apply (sum_degree (@radd R)) with (a := dcoef R den a) (b := dcoef R den b); try (apply ddeg_of, L).
    + apply radd_0_l. + intros x Hx. rewrite radd_0_r in Hx. exact Hx. + intros x Hx. rewrite radd_0_l in Hx. exact Hx.
    + eapply is_degree_ext; [apply (C06_dense_add T O R den L a b r (or_intror K))|apply ddeg_of, L].
  - apply (sum_degree (@rsub R)) with (a := dcoef R den a) (b := dcoef R den b); try (apply ddeg_of, L).
    + apply rsub_0_r. + intros x Hx. rewrite rsub_0_r in Hx. exact Hx. + intros x Hx. symmetry. apply rsub_eq_0, Hx.
    + eapply is_degree_ext; [apply (C07_dense_sub T O R den L a b r K)|apply ddeg_of, L].
Qed.

(** Negation, derivative, integral and shifts. *)
Theorem C74_dense_calculus : forall T (O : num T) R den, lawful O R den ->
  (forall a r, dense_neg O a = Ok r -> ddeg O r = ddeg O a) /\
  (domain R -> char0 R -> forall l r, vec_ok O l -> dense_derivative O l = Ok r -> ddeg O r = deg_pred (ddeg O l)) /\
  (domain R -> char0 R -> exact_div O R den -> forall l r, vec_ok O l -> dense_integral O l = Ok r -> ddeg O r = deg_succ (ddeg O l)) /\
  (forall fuel (left : bool) p k r, i32_shift k -> dense_shift O (S (S fuel)) left p k = Ok r \/ dense_shift_assign O (S (S fuel)) left p k = Ok r ->
     let s := if left then k else (- k)%Z in
     ddeg O r = if (0 <=? s)%Z then deg_add (ddeg O p) (Some (Z.to_nat s)) else deg_sub (ddeg O p) (Z.to_nat (- s))).
Proof.
  intros T O R den L. split; [|split; [|split]].
  - intros a r H. apply (ddeg_is O R den L r _ _ (C07_dense_neg T O R den L a r H)). apply popp_degree, ddeg_of, L.
  - intros HD C l r Hl H. apply (ddeg_is O R den L r _ _ (C13_dense_derivative T O R den L l r Hl H)). apply (pderiv_degree HD C), ddeg_of, L.
  - intros HD C X l r Hl H. destruct (dense_integral_exact O R den L X C l r Hl H) as [H0 E].
    apply (ddeg_is O R den L r _ _ (peq_refl _)). apply (pinteg_degree HD C _ _ _ H0 E), ddeg_of, L.
  - intros fuel left p k r Hk H s. apply (ddeg_is O R den L r _ _ (C15_dense_shift T O R den L fuel left p k r Hk H)). unfold pshift. fold s.
    destruct (0 <=? s)%Z; [apply pshl_degree|apply pshr_degree]; apply ddeg_of, L.
Qed.

Theorem C74_sparse : forall T (O : num T) R den, lawful O R den ->
  (domain R -> forall a b r, swf a -> swf b ->
     n_chk O = true \/ (exists na nb, pbound (scoef R den a) na /\ pbound (scoef R den b) nb /\ (na + nb <= USIZE_MAX)%N) ->
     sparse_mul O a b = Ok r -> sdeg O r = deg_add (sdeg O a) (sdeg O b)) /\
  (domain R -> r1 <> @r0 R -> forall fuel p e r, swf p -> n_chk O = true \/ (exists n, pbound (scoef R den p) n /\ (n * e <= USIZE_MAX)%N) ->
     sparse_pow O fuel p e = Ok r -> sdeg O r = deg_mul (N.to_nat e) (sdeg O p)) /\
  (forall a b r, swf a -> swf b -> sparse_add O a b = Ok r \/ sparse_add_assign O a b = Ok r \/ sparse_sub O a b = Ok r ->
     deg_le (sdeg O r) (deg_max (sdeg O a) (sdeg O b)) /\ (sdeg O a <> sdeg O b -> sdeg O r = deg_max (sdeg O a) (sdeg O b))) /\
  (forall a r, swf a -> sparse_neg O a = Ok r -> sdeg O r = sdeg O a) /\
  (domain R -> char0 R -> forall m r, swf m -> sparse_derivative O m = Ok r -> sdeg O r = deg_pred (sdeg O m)) /\
  (domain R -> char0 R -> exact_div O R den -> forall m r, swf m -> (n_chk O = true \/ Forall (fun kv => (fst kv < USIZE_MAX)%N) m) ->
     sparse_integral O m = Ok r -> sdeg O r = deg_succ (sdeg O m)) /\
  (forall fuel (left : bool) m k r, swf m -> i32_shift k ->
     (n_chk O = true \/ Forall (fun kv => (fst kv + Z.to_N (if left then k else - k)%Z <= USIZE_MAX)%N) m) ->
     sparse_shift O (S (S fuel)) left m k = Ok r ->
     let s := if left then k else (- k)%Z in
     sdeg O r = if (0 <=? s)%Z then deg_add (sdeg O m) (Some (Z.to_nat s)) else deg_sub (sdeg O m) (Z.to_nat (- s))).
Proof.
  intros T O R den L. split; [|split; [|split; [|split; [|split; [|split]]]]].
  - intros HD a b r Ha Hb Hk H. destruct (C24_sparse_mul T O R den L a b r Ha Hb Hk H) as [W E].
    apply (sdeg_is O R den L r _ _ W E). apply (pmul_degree HD); apply sdeg_of; assumption.
  - intros HD H10 fuel p e r Hp Hk H. destruct (C10_sparse_pow T O R den L fuel p e r Hp Hk H) as [W E].
    apply (sdeg_is O R den L r _ _ W E). apply (ppow_degree HD H10), sdeg_of; assumption.
  - intros a b r Ha Hb H.
    assert (K : (sparse_add O a b = Ok r \/ sparse_add_assign O a b = Ok r) \/ sparse_sub O a b = Ok r) by tauto. destruct K as [K|K].
    + destruct (C23_sparse_add T O R den L a b r Ha Hb K) as [W E].
      apply (sum_degree (@radd R)) with (a := scoef R den a) (b := scoef R den b); try (apply sdeg_of; assumption).
      * apply radd_0_l. * intros x Hx. rewrite radd_0_r in Hx. exact Hx. * intros x Hx. rewrite radd_0_l in Hx. exact Hx.
      * eapply is_degree_ext; [apply E|apply sdeg_of; assumption].
    + destruct (C23_sparse_sub T O R den L a b r Ha Hb K) as [W E].
      apply (sum_degree (@rsub R)) with (a := scoef R den a) (b := scoef R den b); try (apply sdeg_of; assumption).
      * apply rsub_0_r. * intros x Hx. rewrite rsub_0_r in Hx. exact Hx. * intros x Hx. symmetry. apply rsub_eq_0, Hx.
      * eapply is_degree_ext; [apply E|apply sdeg_of; assumption].
  - intros a r Ha H. destruct (C23_sparse_neg T O R den L a r Ha H) as [W E]. apply (sdeg_is O R den L r _ _ W E). apply popp_degree, sdeg_of; assumption.
  - intros HD C m r Hm H. destruct (C13_sparse_derivative T O R den L m r Hm H) as [W E]. apply (sdeg_is O R den L r _ _ W E).
    apply (pderiv_degree HD C), sdeg_of; assumption.
  - intros HD C X m r Hm Hk H. destruct (sparse_integral_spec O R den L m r Hm Hk H) as (W & _).
    destruct (C14_sparse_integral_exact T O R den L X C m r Hm Hk H) as [H0 E].
    apply (sdeg_is O R den L r _ _ W (peq_refl _)). apply (pinteg_degree HD C _ _ _ H0 E), sdeg_of; assumption.
  - intros fuel left m k r Hm Hk Hs H s. destruct (C15_sparse_shift T O R den L fuel left m k r Hm Hk Hs H) as [W E].
    apply (sdeg_is O R den L r _ _ W E). unfold pshift. fold s. destruct (0 <=? s)%Z; [apply pshl_degree|apply pshr_degree]; apply sdeg_of; assumption.
Qed.

Lemma Z_char0 : char0 Z_ring.
Proof. intros n. rewrite Z_of_nat_ring. cbn [r0 Z_ring]. lia. Qed.

(** Overflow-checked integers: the degrees add whenever the product is computed. *)
Theorem C74_int_checked : forall t (a b : list (int t)) r, let O := int_num true t in vec_ok O a -> vec_ok O b ->
  (dense_mul O a b = Ok r -> ddeg O r = deg_add (ddeg O a) (ddeg O b)) /\ (dense_derivative O a = Ok r -> ddeg O r = deg_pred (ddeg O a)).
Proof.
  intros t a b r O Ha Hb. split; intros H.
  - apply (proj1 (C74_dense_product _ O _ _ (checked_lawful t) Z_domain ltac:(discriminate)) a b r Ha Hb). auto.
  - apply (proj1 (proj2 (C74_dense_calculus _ O _ _ (checked_lawful t))) Z_domain Z_char0 a r Ha H).
Qed.

(** Without overflow checks degrees of products can drop, for every type: (2^(b-1) x)(2 x) = 0. *)
Theorem C74_wrapping_refuted : forall t, exists a b r, dense_mul (int_num false t) a b = Ok r /\
  ddeg (int_num false t) a = Some 1 /\ ddeg (int_num false t) b = Some 1 /\ ddeg (int_num false t) r = None.
Proof.
  intros t. exists [mk_int t (2 ^ (bits t - 1)); mk_int t 0], [mk_int t 2; mk_int t 0].
  destruct t; eexists; (split; [vm_compute; reflexivity|]); repeat split; vm_compute; reflexivity.
Qed.

(** And for floats, by underflow: (2^-1000 x)(2^-1000 x) = 0, (2^-100 x)(2^-100 x) = 0 in f32. *)
Definition tiny (f : fty) : flt f := match f with F32 => Bldexp mode_NE (f_of_Z F32 1) (-100) | F64 => Bldexp mode_NE (f_of_Z F64 1) (-1000) end.
Theorem C74_float_refuted : forall f, exists a, forall chk powi, let O := float_num chk f powi in
  exists r, dense_mul O a a = Ok r /\ ddeg O a = Some 1 /\ ddeg O r = None.
Proof.
  intros f. exists [tiny f; fzero f]. intros chk powi O.
  assert (E : rmap (ddeg O) (dense_mul O [tiny f; fzero f] [tiny f; fzero f]) = Ok None) by (subst O; destruct f, chk; vm_compute; reflexivity).
  destruct (dense_mul O [tiny f; fzero f] [tiny f; fzero f]) as [r| |]; try discriminate E. exists r. split; [reflexivity|].
  split; [subst O; destruct f, chk; vm_compute; reflexivity|]. injection E as E. exact E.
Qed.

Example C74_case : let O := int_num true I32 in
  rmap (map ival) (dense_mul O (i32s [2; -1; 3]%Z) (i32s [0; 4; 0; 0; 1]%Z)) = Ok [8; -4; 12; 2; -1; 3]%Z /\
  ddeg O (i32s [2; -1; 3]%Z) = Some 2 /\ ddeg O (i32s [0; 4; 0; 0; 1]%Z) = Some 3 /\ ddeg O (i32s [8; -4; 12; 2; -1; 3]%Z) = Some 5 /\
  rmap (map ival) (dense_add O (i32s [2; -1; 3]%Z) (i32s [-2; 1; 4]%Z)) = Ok [7]%Z.
Proof. repeat split; vm_compute; reflexivity. Qed.

(** ** C75 *)

Lemma be_plin {R : comring} (a : car R) : peq (be_coef [r1; ropp a]) (plin a).
Proof. intros [|[|[|d]]]; reflexivity. Qed.

(** Dividing by x - a leaves the remainder p(a). [d] is any Polynomial that is x - a. *)
Theorem C75_remainder : forall T (O : num T) R den, lawful O R den -> nice_div O -> r1 <> @r0 R ->
  forall fuel p d a v, peq (dcoef R den d) (be_coef [r1; ropp (den a)]) -> dense_eval O p a = Ok v ->
  (forall q r, vec_ok O p -> dense_div_mod O fuel p d = Ok (q, r) -> dense_eq O r [v] = Ok true) /\
  (forall r, dense_rem_assign O fuel p d = Ok r -> dense_eq O r [v] = Ok true).
Proof.
  intros T O R den L N H10 fuel p d a v Hd Hv.
  assert (G : forall q r, pfin q -> euclid (dcoef R den p) (dcoef R den d) q (dcoef R den r) -> dense_eq O r [v] = Ok true).
  { intros q r Hq E. destruct (remainder_value _ (den a) _ _ _ H10 (peq_trans _ _ _ Hd (be_plin _)) E Hq) as (V & Z & _).
    destruct (C05_dense_eq T O R den L r [v]) as (b & Eb & Hb). rewrite Eb. f_equal. apply Hb. intros [|i].
    - cbn. apply (is_value_fun (dcoef R den p) (den a)); [exact V|apply (C12_dense_eval T O R den L), Hv].
    - rewrite Z by lia. symmetry. apply dcoef_overflow. cbn. lia. }
  split.
  - intros q r Hp H. apply (G (dcoef R den q)); [apply dcoef_pfin|]. apply (C18_dense_div_mod T O R den L N fuel p d q r Hp H).
  - intros r H. destruct (C20_dense_rem_assign T O R den L N fuel p d r H) as (q & Hq & E). apply (G q r Hq E).
Qed.

(** a is a root iff x - a divides: the remainder is zero and the quotient multiplies back. *)
Theorem C75_factor : forall T (O : num T) R den, lawful O R den -> nice_div O -> r1 <> @r0 R ->
  forall fuel p d a v q r, peq (dcoef R den d) (be_coef [r1; ropp (den a)]) -> dense_eval O p a = Ok v ->
  vec_ok O p -> dense_div_mod O fuel p d = Ok (q, r) ->
  (is_zero O v = true <-> dense_is_zero O r = true) /\
  (is_zero O v = true -> forall s, vec_ok O q -> vec_ok O d -> dense_mul O q d = Ok s -> dense_eq O s p = Ok true) /\
  (forall x y z, dense_eval O p x = Ok y -> dense_eval O q x = Ok z -> den y = radd (rmul (den z) (rsub (den x) (den a))) (den v)).
Proof.
  intros T O R den L N H10 fuel p d a v q r Hd Hv Hp H.
  pose proof (C18_dense_div_mod T O R den L N fuel p d q r Hp H) as E.
  destruct (remainder_value _ (den a) _ _ _ H10 (peq_trans _ _ _ Hd (be_plin _)) E (dcoef_pfin R den q)) as (V & Z & F).
  pose proof (is_value_fun _ _ _ _ V (C12_dense_eval T O R den L p a v Hv)) as R0.
  assert (K : is_zero O v = true <-> peq (dcoef R den r) pzero).
  { rewrite (lw_is_zero _ _ _ L), <- R0. split; [intros K [|i]; [exact K|apply Z; lia]|intros K; apply K]. }
  split; [|split].
  - rewrite (C02_dense_is_zero T O R den L). exact K.
  - intros Hz s Hq Hdv Hs. destruct (C05_dense_eq T O R den L s p) as (b & Eb & Hb). rewrite Eb. f_equal. apply Hb.
    intros i. rewrite (C08_dense_mul T O R den L q d s Hq Hdv (or_introl Hs) i), (proj1 E i). unfold padd. rewrite (proj1 K Hz i).
    unfold pzero. rewrite radd_0_r. reflexivity.
  - intros x y z Hy Hz. rewrite <- R0. apply (F (den x)); apply (C12_dense_eval T O R den L); assumption.
Qed.

(** With exact division both calls return; over checked integers they end (a panic is possible
    only by overflow). *)
Theorem C75_returns : 
  (forall T (O : num T) R den, lawful O R den -> total_ops O -> exact_div O R den -> r1 <> @r0 R ->
   forall p d a fuel, vec_ok O p -> peq (dcoef R den d) (be_coef [r1; ropp (den a)]) -> length p <= fuel ->
   (exists q r, dense_div_mod O fuel p d = Ok (q, r)) /\ (exists r, dense_rem_assign O fuel p d = Ok r) /\ (exists v, dense_eval O p a = Ok v)) /\
  (forall t p d (a : int t) fuel, peq (dcoef Z_ring ival d) (@be_coef Z_ring [1; - ival a]%Z) -> length p <= fuel ->
   dense_div_mod (int_num true t) fuel p d <> Fuel).
Proof.
  split.
  - intros T O R den L HT X H10 p d a fuel Hp Hd Hf.
    assert (N : ~ peq (dcoef R den d) pzero).
    { intros K. apply H10. transitivity (dcoef R den d 1); [rewrite (Hd 1); reflexivity|apply (K 1)]. }
    split; [|split].
    + destruct (C18_dense_div_mod_field T O R den L HT X p d fuel Hp N Hf) as (q & r & H & _). eauto.
    + apply (C20_dense_rem_assign_field T O R den L HT X p d fuel N Hf).
    + apply (C12_dense_eval_returns T O HT).
  - intros t p d a fuel Hd Hf.
    destruct (@deflate Z_ring (length p) (dcoef Z_ring ival p) (ival a)) as (q & v & E & _ & B). { intros i Hi. apply dcoef_overflow. lia. }
    apply (C19_dense_div_mod_terminates_partial t p d q (pmono v 0) fuel Hf); [eexists; exact B|]. split.
    + intros i. rewrite (E i). unfold padd. f_equal. apply pmul_ext; [apply peq_refl|]. apply peq_sym. eapply peq_trans; [exact Hd|apply (@be_plin Z_ring)].
    + exists 1. split; [|intros [|i] Hi; [lia|reflexivity]]. eapply is_degree_ext; [apply peq_sym; eapply peq_trans; [exact Hd|apply (@be_plin Z_ring)]|].
      apply plin_degree. discriminate.
Qed.

(** 2x^3 - 5x + 7 divided by x - 3. *)
Example C75_case : let O := int_num true I32 in
  rmap (fun qr => (map ival (fst qr), map ival (snd qr))) (dense_div_mod O 9 (i32s [2; 0; -5; 7]%Z) (i32s [1; -3]%Z)) = Ok ([2; 6; 13]%Z, [46]%Z) /\
  rmap ival (dense_eval O (i32s [2; 0; -5; 7]%Z) (mk_int I32 3)) = Ok 46%Z /\
  peq (dcoef Z_ring ival (i32s [1; -3]%Z)) (@be_coef Z_ring [1; - ival (mk_int I32 3)]%Z).
Proof. split; [vm_compute; reflexivity|]. split; [vm_compute; reflexivity|]. intros d. reflexivity. Qed.

(** ** C76 *)

(** Polynomials which agree at more points than their degrees are equal. *)
Theorem C76_dense : forall T (O : num T) R den, lawful O R den -> domain R -> forall a b xs,
  NoDup xs -> deg_lt (ddeg O a) (Some (length xs)) -> deg_lt (ddeg O b) (Some (length xs)) ->
  (forall x, In x xs -> exists v, dense_eval O a x = Ok v /\ dense_eval O b x = Ok v) ->
  dense_eq O a b = Ok true.
Proof.
  intros T O R den L HD a b xs Hn Ha Hb Hx. destruct (C05_dense_eq T O R den L a b) as (r & Er & Hr). rewrite Er. f_equal. apply Hr.
  apply (agree_equal HD (length xs) _ _ (map den xs)).
  - intros i Hi. apply (proj1 (degree_vanish _ _) (ddeg_of O R den L a)). destruct (ddeg O a); cbn in *; lia.
  - intros i Hi. apply (proj1 (degree_vanish _ _) (ddeg_of O R den L b)). destruct (ddeg O b); cbn in *; lia.
  - apply FinFun.Injective_map_NoDup; [intros x y; apply (lw_inj _ _ _ L)|exact Hn].
  - rewrite map_length. lia.
  - intros x Hi. apply in_map_iff in Hi. destruct Hi as (y & <- & Hy). destruct (Hx y Hy) as (v & V1 & V2). exists (den v).
    split; apply (C12_dense_eval T O R den L); assumption.
Qed.

Theorem C76_sparse : forall T (O : num T) R den, lawful O R den -> domain R -> forall a b xs, swf a -> swf b ->
  Forall (fun kv => (fst kv < 2 ^ 32)%N) a -> Forall (fun kv => (fst kv < 2 ^ 32)%N) b ->
  NoDup xs -> deg_lt (sdeg O a) (Some (length xs)) -> deg_lt (sdeg O b) (Some (length xs)) ->
  (forall x, In x xs -> exists v, sparse_eval O a x = Ok v /\ sparse_eval O b x = Ok v) ->
  sparse_eq O a b = true.
Proof.
  intros T O R den L HD a b xs Wa Wb La Lb Hn Ha Hb Hx. apply (C05_sparse_eq T O R den L a b Wa Wb).
  apply (agree_equal HD (length xs) _ _ (map den xs)).
  - intros i Hi. apply (proj1 (degree_vanish _ _) (sdeg_of O R den L a Wa)). destruct (sdeg O a); cbn in *; lia.
  - intros i Hi. apply (proj1 (degree_vanish _ _) (sdeg_of O R den L b Wb)). destruct (sdeg O b); cbn in *; lia.
  - apply FinFun.Injective_map_NoDup; [intros x y; apply (lw_inj _ _ _ L)|exact Hn].
  - rewrite map_length. lia.
  - intros x Hi. apply in_map_iff in Hi. destruct Hi as (y & <- & Hy). destruct (Hx y Hy) as (v & V1 & V2). exists (den v).
    split; apply (C12_sparse_eval T O R den L); assumption.
Qed.

(** A non-zero polynomial has at most degree-many roots. *)
Theorem C76_root_count : forall T (O : num T) R den, lawful O R den -> domain R -> forall p xs n,
  NoDup xs -> dense_degree O p = Num n -> (forall x, In x xs -> exists v, dense_eval O p x = Ok v /\ is_zero O v = true) ->
  length xs <= N.to_nat n.
Proof.
  intros T O R den L HD p xs n Hn Hd Hx. destruct (Nat.le_gt_cases (length xs) (N.to_nat n)) as [|Hl]; [assumption|exfalso].
  pose proof (ddeg_of O R den L p) as G. unfold ddeg in G. rewrite Hd in G. destruct G as [G1 G2]. apply G1.
  apply (too_many_roots HD (length xs) (dcoef R den p) (map den xs)).
  - intros i Hi. apply G2. lia.
  - apply FinFun.Injective_map_NoDup; [intros x y; apply (lw_inj _ _ _ L)|exact Hn].
  - rewrite map_length. lia.
  - intros x Hi. apply in_map_iff in Hi. destruct Hi as (y & <- & Hy). destruct (Hx y Hy) as (v & V1 & V2).
    apply (lw_is_zero _ _ _ L) in V2. rewrite <- V2. apply (C12_dense_eval T O R den L), V1.
Qed.

(** False without overflow checks, for every integer type: 2^(b-1) (x^2 + x) is 0 at every point. *)
Theorem C76_wrapping_refuted : forall t, exists p, dense_eq (int_num false t) p [] = Ok false /\ ddeg (int_num false t) p = Some 2 /\
  forall x, exists v, dense_eval (int_num false t) p x = Ok v /\ ival v = 0%Z.
Proof.
  intros t. set (h := mk_int t (2 ^ (bits t - 1))). exists [h; h; mk_int t 0].
  split; [destruct t; vm_compute; reflexivity|]. split; [destruct t; vm_compute; reflexivity|]. intros x.
  destruct (C12_dense_eval_int_wrapping t [h; h; mk_int t 0] x (ival h * (ival x * (ival x + 1)))%Z) as (r & Hr & Er).
  { exists 3. split; [intros i Hi; apply dcoef_overflow; cbn; lia|]. cbn [sumn]. unfold dcoef, be_coef. cbn [rev map app nth rpow r0 r1 radd rmul Z_ring].
    assert (H0 : ival (mk_int t 0) = 0%Z) by (destruct t; vm_compute; reflexivity). rewrite H0. change (@eq Z (ival h * (ival x * (ival x + 1)))%Z (0 + 0 * 1 + ival h * (ival x * 1) + ival h * (ival x * (ival x * 1)))%Z). ring. }
  exists r. split; [exact Hr|]. rewrite Er. transitivity (wrap t 0); [|destruct t; vm_compute; reflexivity]. apply wrap_congr.
  assert (Hh : exists k, (ival h * 2 = imod t * k)%Z).
  { exists (ival h * 2 / imod t)%Z. destruct t; vm_compute; reflexivity. }
  destruct Hh as (k & Hk).
  assert (He : exists e, (ival x * (ival x + 1) = 2 * e)%Z).
  { destruct (Z.Even_or_Odd (ival x)) as [[y Hy]|[y Hy]]; rewrite Hy; [exists (y * (2 * y + 1))%Z|exists ((2 * y + 1) * (y + 1))%Z]; ring. }
  destruct He as (e & ->). replace (ival h * (2 * e))%Z with ((k * e) * imod t)%Z by (rewrite Z.mul_assoc, Hk; ring).
  rewrite Z.mod_mul; [reflexivity|]. destruct t; vm_compute; discriminate.
Qed.

(** x^2 - 3x + 2 and (x - 1)(x - 2) agree at 0, 1, 2. *)
Example C76_case : let O := int_num true I32 in
  forall s, dense_mul O (i32s [1; -1]%Z) (i32s [1; -2]%Z) = Ok s -> dense_eq O s (i32s [1; -3; 2]%Z) = Ok true.
Proof.
  intros O s Hs. apply (C76_dense _ O _ _ (checked_lawful I32) Z_domain s _ (i32s [0; 1; 2]%Z)).
  - apply (NoDup_map_inv ival). replace (map ival (i32s [0; 1; 2]%Z)) with [0; 1; 2]%Z by (vm_compute; reflexivity).
    repeat constructor; cbn; intuition discriminate.
  - assert (E : rmap (ddeg O) (dense_mul O (i32s [1; -1]%Z) (i32s [1; -2]%Z)) = Ok (Some 2)) by (vm_compute; reflexivity).
    rewrite Hs in E. cbn [rmap] in E. injection E as ->. cbn. lia.
  - assert (E : ddeg O (i32s [1; -3; 2]%Z) = Some 2) by (vm_compute; reflexivity). rewrite E. cbn. lia.
  - intros x Hx. assert (E : dense_mul O (i32s [1; -1]%Z) (i32s [1; -2]%Z) = Ok (i32s [1; -3; 2]%Z)) by (vm_compute; reflexivity).
    assert (s = i32s [1; -3; 2]%Z) as -> by congruence. assert (K : exists z, rmap ival (dense_eval O (i32s [1; -3; 2]%Z) x) = Ok z).
    { cbn [i32s map In] in Hx. destruct Hx as [<-|[<-|[<-|[]]]]; [exists 2%Z|exists 0%Z|exists 0%Z]; vm_compute; reflexivity. }
    destruct K as (z & K). destruct (dense_eval O (i32s [1; -3; 2]%Z) x) as [v| |]; try discriminate K. exists v. split; reflexivity.
Qed.
