(** Property C101: roots() does not depend on how a polynomial is stored. *)

From Coq Require Import List NArith ZArith Reals Lia Bool Sorted.
From Flocq Require Import Core BinarySingleNaN.
From Verif Require Import Base Num Spec Laws Terms Dense DenseFacts Mono Bino Trino Sparse SparseFacts SparseCalc Coef Floats FloatFacts FloatErr FloatCoef FloatQuad
  Roots RootSpecial P_Dense1 P_Dense2 P_Sparse1 P_Sparse2 P_Struct P_FloatErr P_FloatRep P_FloatQuad P_FloatQuad2 P_Roots2 P_Roots3 P_Equal.
Import ListNotations.
Local Open Scope nat_scope.

(** ** Lemmas *)

Section L.
Context {T : Type} (O : num T) (Z0 : is_zero O (zero O) = true) (S : rops T).

Lemma special_none ts : decreasing ts -> find_roots_special O S ts = Ok None ->
  exists c d u rest, ts = (c, d) :: u :: rest /\ (4 <= d)%N.
Proof.
  intros D E. rewrite (special_ok O S ts D) in E. unfold special_spec in E.
  destruct ts as [|[a k] [|u ts]]; try discriminate.
  destruct (N.eqb_spec k 1); [inv_ok; discriminate|]. destruct (N.eqb_spec k 2); [|destruct (N.eqb_spec k 3)].
  - unfold listed in E. apply bind_ok in E. destruct E as (r & _ & E). destruct r; discriminate.
  - unfold listed in E. apply bind_ok in E. destruct E as (r & _ & E). destruct r; discriminate.
  - exists a, k, u, ts. split; [reflexivity|]. inversion_clear D as [|? ? _ D2]. inversion_clear D2 as [|? ? D3 _]. cbn [snd] in D3. lia.
Qed.

Lemma find_roots_special_only s df deg ev fu s' df' deg' ev' fu' ts : find_roots_special O S ts <> Ok None ->
  find_roots O S s df deg ev fu ts = find_roots O S s' df' deg' ev' fu' ts.
Proof. intros H. unfold find_roots. destruct (find_roots_special O S ts) as [[rs|]|k|]; try reflexivity. contradiction. Qed.

(** [p] has degree at most 3, or a single term. *)
Definition simple (p : nat -> T) : Prop :=
  (forall d, 4 <= d -> is_zero O (p d) = true) \/ (exists k, forall d, d <> k -> is_zero O (p d) = true).

Lemma simple_special p ts : simple p -> lists_of O p ts -> find_roots_special O S ts <> Ok None.
Proof.
  intros Hp [D HI] E. destruct (special_none ts D E) as (c & d & [c' d'] & rest & -> & Hd).
  destruct (proj1 (HI c d) (or_introl eq_refl)) as [-> H1]. destruct (proj1 (HI c' d') (or_intror (or_introl eq_refl))) as [-> H2].
  inversion_clear D as [|? ? _ D2]. inversion_clear D2 as [|? ? D3 _]. cbn [snd] in D3.
  destruct Hp as [Hp|(k & Hp)].
  - rewrite Hp in H1 by lia. discriminate.
  - destruct (Nat.eq_dec (N.to_nat d) k) as [G|G]; [|rewrite Hp in H1 by exact G; discriminate].
    rewrite Hp in H2 by lia. discriminate.
Qed.

Lemma terms_agree a m : swf m -> same_coefs O (dpol O a) (spol O m) -> dense_terms O a = Ok (sparse_terms O m).
Proof.
  intros Hm Sa. destruct (proj1 (C72_terms _ O Z0) a) as (ts & E & H1). pose proof (proj1 (proj2 (C72_terms _ O Z0)) m Hm) as H2. rewrite E. f_equal.
  apply (lists_of_fun O (spol O m)); [|exact H2]. revert H1. apply lists_same; intros d Hd; destruct (Sa d) as [K|[K1 K2]]; congruence.
Qed.
Lemma degree_agree a m : swf m -> same_coefs O (dpol O a) (spol O m) -> dense_degree O a = sparse_degree O m.
Proof.
  intros Hm Sa. pose proof (proj1 (C72_degree _ O Z0) a) as H1. pose proof (proj1 (proj2 (C72_degree _ O Z0)) m Hm) as H2.
  apply (has_degree_same O _ _ _ Sa) in H1. eapply has_degree_fun; eassumption.
Qed.
Lemma terms_agree_dense a b : same_coefs O (dpol O a) (dpol O b) -> dense_terms O a = dense_terms O b.
Proof.
  intros Sa. destruct (proj1 (C72_terms _ O Z0) a) as (ts & E & H1). destruct (proj1 (C72_terms _ O Z0) b) as (us & F & H2). rewrite E, F. f_equal.
  apply (lists_of_fun O (dpol O b)); [|exact H2]. revert H1. apply lists_same; intros d Hd; destruct (Sa d) as [K|[K1 K2]]; congruence.
Qed.
Lemma find_roots_ext s df deg ev ev' fu ts : (forall x, ev x = ev' x) -> find_roots O S s df deg ev fu ts = find_roots O S s df deg ev' fu ts.
Proof.
  intros H. unfold find_roots. destruct (find_roots_special O S ts) as [[rs|]|k|]; try reflexivity. cbn [bind].
  destruct (index ts 0) as [[leading degree]| |]; try reflexivity. cbn [bind].
  destruct (uadd (n_chk O) degree 1) as [n| |]; try reflexivity. cbn [bind].
  destruct (vec_repeat (n_max_len O) (zero O) n) as [vs| |]; try reflexivity. cbn [bind].
  destruct (update vs 0 (fun _ => Ok leading)) as [nv| |]; try reflexivity. cbn [bind].
  destruct (slice_from ts 1) as [rest| |]; try reflexivity. cbn [bind].
  destruct (foldM _ _ rest) as [[v1 v2]| |]; try reflexivity. cbn [bind].
  assert (F : forall l st, foldM (take_root O S df ev) st l = foldM (take_root O S df ev') st l).
  { induction l as [|x l IH]; intros st; [reflexivity|]. cbn [foldM]. unfold take_root at 1 3. rewrite !H.
    match goal with |- bind ?u _ = bind ?u _ => destruct u; try reflexivity; cbn [bind]; apply IH end. }
  generalize (@nil T). revert v1 v2. generalize 0. induction fu as [|fu IH]; intros pass v1 v2 acc; [reflexivity|].
  cbn [find_loop]. destruct (slice_from v1 1) as [tail| |]; try reflexivity. cbn [bind].
  destruct (s pass tail) as [|t ts']; [reflexivity|]. rewrite F.
  destruct (foldM _ _ _) as [[v3 v4]| |]; try reflexivity. cbn [bind].
  destruct v3 as [|y v3]; [reflexivity|]. destruct (normalize _ _) as [v5| |]; try reflexivity. cbn [bind].
  destruct (index v5 0) as [ld| |]; try reflexivity. cbn [bind]. destruct (mapM _ v5) as [v6| |]; try reflexivity. cbn [bind]. apply IH.
Qed.
End L.

(** ** C101 *)

(** For every coefficient type, f64 included: the same coefficients have the same roots, to the
    last bit and with the same panics, in a Polynomial (with or without leading zeros) and in a
    SparsePolynomial (with or without stored zeros), up to degree 3 and for single terms,
    whatever the solver for higher degrees. *)
Theorem C101_formula : forall T (O : num T) (S : rops T), is_zero O (zero O) = true ->
  forall s df fu s' df' fu' a, simple O (dpol O a) ->
  (forall m, swf m -> same_coefs O (dpol O a) (spol O m) -> dense_roots O S s df fu a = sparse_roots O S s' df' fu' m) /\
  (forall b, same_coefs O (dpol O a) (dpol O b) -> dense_roots O S s df fu a = dense_roots O S s' df' fu' b).
Proof.
  intros T O S Z0 s df fu s' df' fu' a Hs. split.
  - intros m Hm Sa. unfold dense_roots, sparse_roots. rewrite (terms_agree O Z0 a m Hm Sa). cbn [bind]. apply find_roots_special_only.
    destruct (proj1 (C72_terms _ O Z0) a) as (ts & E & H1). rewrite (terms_agree O Z0 a m Hm Sa) in E. injection E as ->.
    apply (simple_special O Z0 S _ _ Hs H1).
  - intros b Sa. unfold dense_roots. rewrite <- (terms_agree_dense O Z0 a b Sa).
    destruct (proj1 (C72_terms _ O Z0) a) as (ts & E & H1). rewrite E. cbn [bind]. apply find_roots_special_only. apply (simple_special O Z0 S _ _ Hs H1).
Qed.

(** Of any degree, if the two evaluations agree. *)
Theorem C101_evaluation : forall T (O : num T) (S : rops T), is_zero O (zero O) = true ->
  forall s df fu a m, swf m -> same_coefs O (dpol O a) (spol O m) -> (forall x, dense_eval O a x = sparse_eval O m x) ->
  dense_roots O S s df fu a = sparse_roots O S s df fu m.
Proof.
  intros T O S Z0 s df fu a m Hm Sa H. unfold dense_roots, sparse_roots. rewrite (terms_agree O Z0 a m Hm Sa), (degree_agree O Z0 a m Hm Sa). cbn [bind].
  apply find_roots_ext, H.
Qed.

(** With exact arithmetic they do: equal polynomials have the same roots. *)
Theorem C101_exact : forall T (O : num T) (S : rops T) R den, lawful O R den -> forall s df fu a,
  (total_ops O -> (forall x e, exists y, upow O x e = Ok y) -> forall m, swf m -> Forall (fun kv => (fst kv < 2 ^ 32)%N) m -> peq (scoef R den m) (dcoef R den a) ->
     dense_roots O S s df fu a = sparse_roots O S s df fu m) /\
  (zero_returns O -> forall b, dense_eq O a b = Ok true -> dense_roots O S s df fu a = dense_roots O S s df fu b).
Proof.
  intros T O S R den L s df fu a. assert (Z0 : is_zero O (zero O) = true).
  { apply (lw_is_zero _ _ _ L). apply (lw_zero _ _ _ L). }
  split.
  - intros HT HU m Hm Hk E. apply (C101_evaluation T O S Z0); [exact Hm| |].
    + intros d. left. apply (lw_inj _ _ _ L).
      transitivity (dcoef R den a d); [|rewrite <- (E d)].
      * unfold dpol. symmetry. apply dcoef_cf, (lw_zero _ _ _ L).
      * unfold spol. rewrite scoef_get by apply Hm. destruct (m_get (N.of_nat d) m); [reflexivity|]. symmetry. apply (lw_zero _ _ _ L).
    + intros x. destruct (C12_dense_eval_returns T O HT a x) as [v V]. destruct (sparse_eval_total O HT HU m x) as [w W].
      rewrite V, W. f_equal. symmetry. apply (C12_dense_sparse_eval_agree T O R den L m a x w v Hk E W V).
  - intros HZ b E. unfold dense_roots. destruct (C92_dense T O R den L a b a b E E) as (E1 & E2 & _). rewrite <- E1, <- E2.
    destruct (dense_terms O a) as [ts| |]; try reflexivity. cbn [bind]. apply find_roots_ext. intros x. apply (C92_dense_eval T O R den L HZ a b E).
Qed.

(** f32 and f64, whatever sqrt, cbrt and round are: coefficients that are the same up to the
    sign of zeros. *)
Theorem C101_float : forall f chk powi (S : rops (flt f)) s df fu s' df' fu' (a : list (flt f)) (m : bmap (flt f)),
  let O := float_num chk f powi in
  swf m -> agree a m -> simple O (dpol O a) -> dense_roots O S s df fu a = sparse_roots O S s' df' fu' m.
Proof.
  intros f chk powi S s df fu s' df' fu' a m O Hm Ha Hs. apply (C101_formula _ O S (float_zero chk f powi)); [exact Hs|exact Hm|exact Ha].
Qed.

(** So a quadratic stored in a SparsePolynomial is solved as accurately as one in a Polynomial. *)
Theorem C70_sparse_polynomial : forall f chk powi cb rd l solver dfuel fuel (a b c : flt f) (m : bmap (flt f)),
  swf m -> agree [a; b; c] m -> moderate a -> moderate b -> moderate c -> (B2R a <> 0)%R ->
  let D := (B2R b * B2R b - 4 * B2R a * B2R c)%R in
  let tol := (4 * uro f * scale (B2R a) (B2R b) (B2R c))%R in
  let small x y := (Rabs (B2R a) * Rabs (residual_re (B2R a) (B2R b) (B2R c) x y) <= tol /\
                   Rabs (B2R a) * Rabs (residual_im (B2R a) (B2R b) x y) <= tol)%R in
  exists rs, sparse_roots (float_num chk f powi) (ieee_rops f cb rd l) solver dfuel fuel m = Ok rs /\
  match rs with
  | ManyRealRoots xs => xs <> [] /\ (forall x, In x xs -> is_finite x = true /\ small (B2R x) 0%R) /\ (- tol <= D)%R
  | ManyComplexRoots zs => length zs = 2%nat /\
      (forall x y, In (x, y) zs -> is_finite x = true /\ is_finite y = true /\ small (B2R x) (B2R y)) /\ (D <= tol)%R
  | _ => False
  end.
Proof.
  intros f chk powi cb rd l solver dfuel fuel a b c m Hm Ha Ma Mb Mc Na D tol small.
  destruct (C70_polynomial f chk powi cb rd l solver dfuel fuel a b c Ma Mb Mc Na) as (rs & E & H). exists rs. split; [|exact H]. rewrite <- E. symmetry.
  apply C101_float; [exact Hm|exact Ha|]. left. intros d Hd. unfold dpol. rewrite cf_overflow by (cbn [length]; lia). apply float_zero.
Qed.

(** 0x^3 + x^2 - 4 with a leading zero and, sparse, with a stored zero. *)
Example C101_case : let O := int_num true I32 in let a := map (mk_int I32) [0; 1; 0; -4]%Z in
  let m := [(0, mk_int I32 (-4)); (1, mk_int I32 0); (2, mk_int I32 1)]%N in
  swf m /\ same_coefs O (dpol O a) (spol O m) /\ simple O (dpol O a) /\
  (exists x y, dense_roots O (int_rops true I32 99) (fun _ _ => []) 0 0 a = Ok (ManyRealRoots [x; y]) /\ ival x = 2%Z /\ ival y = (-2)%Z) /\
  (exists (b c : flt F32) (n : bmap (flt F32)), swf n /\ agree [b; c] n /\ B2R b = 1%R).
Proof.
  split; [|split; [|split; [|split]]].
  - split; repeat constructor; vm_compute; congruence.
  - intros d. left. destruct d as [|[|[|[|d]]]]; try reflexivity. unfold dpol. rewrite cf_overflow by (cbn [length map]; lia). unfold spol. cbn [m_get]. do 3 match goal with |- context [N.eqb ?u ?v] => destruct (N.eqb_spec u v); [exfalso; lia|] end. reflexivity.
  - left. intros d Hd. unfold dpol. rewrite cf_overflow by (cbn [length map]; lia). reflexivity.
  - do 2 eexists. split; [vm_compute; reflexivity|]. split; reflexivity.
  - exists (f_of_Z F32 1), (fzero F32), [(1%N, f_of_Z F32 1)]. split; [|split].
    + split; repeat constructor; vm_compute; congruence.
    + intros [|[|d]]; left; try reflexivity. transitivity (fzero F32); [unfold vcoef; apply nth_overflow; cbn; lia|].
      symmetry. unfold P_FloatErr.mcoef. cbn [m_get]. match goal with |- context [N.eqb ?u ?v] => destruct (N.eqb_spec u v); [exfalso; lia|] end. reflexivity.
    + apply (f_of_Z_small F32 1). vm_compute. discriminate.
Qed.

Print Assumptions C101_formula. Print Assumptions C101_evaluation. Print Assumptions C101_exact. Print Assumptions C101_float. Print Assumptions C70_sparse_polynomial.
