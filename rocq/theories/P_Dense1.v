(** Properties C01-C11 of dense polynomials ([Polynomial<N>]).

    [dcoef R den l] is the polynomial whose coefficients are read off the stored vector
    [l], highest degree first.  [lawful O R den] is proved in Laws.v for overflow-checked
    integers ([R] = Z), wrapping integers ([R] = integers modulo 2^bits), and rationals. *)

From Coq Require Import List NArith ZArith Lia Bool Arith QArith Qcanon.
From Coq Require Import ZifyBool ZifyNat ZifyN.
From Verif Require Import Base Num Spec SpecFacts Laws Terms Dense.
From Verif Require Import DenseFacts DenseArith DenseMul DenseMulInt Wrap.
Import ListNotations.

(** A vector without leading zeros. *)
Definition trimmed {T} (O : num T) (l : list T) : Prop :=
  match l with [] => True | c :: _ => is_zero O c = false end.

Lemma trimmed_strip {T} (O : num T) l : trimmed O (strip O l).
Proof. destruct (strip_split O l) as (pre & _ & _ & _ & H). unfold trimmed. destruct (strip O l); auto. Qed.

Lemma trimmed_is_strip {T} (O : num T) l : trimmed O l -> strip O l = l.
Proof. unfold trimmed, strip. destruct l as [|c l]; simpl; [reflexivity|]. intros ->. reflexivity. Qed.

(** ** C01 *)

(** For every coefficient type (floats included): exactly the leading zeros go. *)
Theorem C01_new_strips_leading_zeros : forall T (O : num T) l,
  exists pre r, dense_new O l = Ok r /\ l = pre ++ r /\
    Forall (fun c => is_zero O c = true) pre /\ trimmed O r.
Proof.
  intros. destruct (strip_split O l) as (pre & H1 & _ & H3 & _).
  exists pre, (strip O l). repeat split; [apply dense_new_ok|exact H1|exact H3|apply trimmed_strip].
Qed.

Theorem C01_new_keeps_coefficients : forall T (O : num T) R den, lawful O R den -> forall l,
  exists r, dense_new O l = Ok r /\ peq (dcoef R den r) (dcoef R den l) /\ dense_new O r = Ok r.
Proof.
  intros T O R den L l. exists (strip O l). repeat split.
  - apply dense_new_ok.
  - apply (strip_coef O R den L).
  - rewrite dense_new_ok. f_equal. apply trimmed_is_strip, trimmed_strip.
Qed.

Example C01_case : rmap (map ival) (dense_new (int_num true I32) (map (mk_int I32) [0; 0; 0; 0; 0; 3; 0; -1]%Z))
  = Ok [3; 0; -1]%Z.
Proof. vm_compute. reflexivity. Qed.

(** ** C02 *)

(** [dn] reads [Degree] as an option. *)
Theorem C02_dense_degree : forall T (O : num T) R den, lawful O R den -> forall l,
  is_degree (dcoef R den l) (dn (dense_degree O l)).
Proof. exact @dense_degree_spec. Qed.

Theorem C02_dense_is_zero : forall T (O : num T) R den, lawful O R den -> forall l,
  dense_is_zero O l = true <-> peq (dcoef R den l) pzero.
Proof.
  intros T O R den L l. pose proof (dense_degree_spec O R den L l) as H. unfold dense_is_zero, degree_is_zero.
  destruct (dense_degree O l) as [|n]; simpl in *.
  - split; auto.
  - split; [discriminate|]. intros H0. destruct H as [H _]. exfalso. apply H, H0.
Qed.

Example C02_case : dense_degree (int_num true I32) (map (mk_int I32) [0; 0; 0; 0; 0; 3; 0; -1]%Z) = Num 2.
Proof. vm_compute. reflexivity. Qed.

(** ** C03 *)

Theorem C03_dense_listing : forall T (O : num T) R den, lawful O R den -> forall l,
  exists ts, dense_terms O l = Ok ts /\ is_listing (dcoef R den l) (dterms R den ts) /\
    forall c d, In (c, d) ts <-> (den c <> r0 /\ dcoef R den l (N.to_nat d) = den c).
Proof.
  intros T O R den L l. destruct (dense_terms_spec O R den L l) as (ts & H1 & H2 & _).
  exists ts. split; [exact H1|]. split; [exact H2|]. intros c d. split.
  - intros H. assert (I : In (den c, d) (dterms R den ts)) by (apply in_map_iff; exists (c, d); auto).
    apply (is_listing_in _ _ _ _ H2) in I. tauto.
  - intros H. apply (is_listing_in _ _ (den c) d H2) in H. apply in_map_iff in H.
    destruct H as ([c' d'] & E & I). injection E as E1 E2. apply (lw_inj _ _ _ L) in E1. subst. exact I.
Qed.

Example C03_case : rmap (map (fun t => (ival (fst t), snd t)))
    (dense_terms (int_num true I32) (map (mk_int I32) [0; 5; 0; 3; 0; -1]%Z))
  = Ok [(5%Z, 4%N); (3%Z, 2%N); ((-1)%Z, 0%N)].
Proof. vm_compute. reflexivity. Qed.

(** ** C04 *)

Theorem C04_dense_term_with_degree : forall T (O : num T) R den, lawful O R den -> forall l d,
  exists t, term_with_deg O l d = Ok t /\
  match t with
  | ZeroTerm => dcoef R den l (N.to_nat d) = r0
  | TTerm c k => k = d /\ den c <> r0 /\ dcoef R den l (N.to_nat d) = den c
  end.
Proof.
  intros T O R den L l d. destruct (term_with_deg_spec O R den L l d) as (t & H & S).
  exists t. split; [exact H|]. destruct t as [|c k]; [exact S|]. destruct S as (A & B & C).
  repeat split; auto. apply (is_zero_false_den O R den L), B.
Qed.

Example C04_case : rmap (fun t => match t with TTerm c d => Some (ival c, d) | ZeroTerm => None end)
    (term_with_deg (int_num false U8) (map (mk_int U8) [0; 5; 0; 3]%Z) 2) = Ok (Some (5%Z, 2%N))
  /\ term_with_deg (int_num true U8) (map (mk_int U8) [0; 5; 0; 3]%Z) USIZE_MAX = Ok ZeroTerm.
Proof. split; vm_compute; reflexivity. Qed.

(** ** C05 *)

Theorem C05_dense_eq : forall T (O : num T) R den, lawful O R den -> forall a b,
  exists r, dense_eq O a b = Ok r /\ (r = true <-> peq (dcoef R den a) (dcoef R den b)).
Proof. exact @dense_eq_spec. Qed.

Example C05_case : dense_eq (int_num true I8) (map (mk_int I8) [0; 5; 0]%Z) (map (mk_int I8) [5; 0]%Z) = Ok true
  /\ dense_eq (int_num true I8) (map (mk_int I8) [5; 0; 0]%Z) (map (mk_int I8) [5; 0]%Z) = Ok false.
Proof. split; vm_compute; reflexivity. Qed.

(** ** C06 *)

Theorem C06_dense_add : forall T (O : num T) R den, lawful O R den -> forall a b r,
  dense_add O a b = Ok r \/ dense_add_assign O a b = Ok r ->
  peq (dcoef R den r) (padd (dcoef R den a) (dcoef R den b)).
Proof.
  intros T O R den L a b r [H|H].
  - rewrite dense_add_assign_strip in H. inv_ok.
    eapply peq_trans; [apply (strip_coef O R den L)|eapply dense_add_assign_coef; eassumption].
  - eapply dense_add_assign_coef; eassumption.
Qed.

Theorem C06_dense_add_trimmed : forall T (O : num T) a b r, dense_add O a b = Ok r -> trimmed O r.
Proof.
  intros T O a b r H. rewrite dense_add_assign_strip in H. inv_ok. apply trimmed_strip.
Qed.

(** It returns exactly when every coefficient of the sum is representable. *)
Theorem C06_dense_add_returns : forall T (O : num T) R den fits, lawful O R den -> fits_ops O R den fits ->
  forall a b,
  ((exists r, dense_add O a b = Ok r) <-> forall d, fits (padd (dcoef R den a) (dcoef R den b) d)) /\
  ((exists r, dense_add_assign O a b = Ok r) <-> forall d, fits (padd (dcoef R den a) (dcoef R den b) d)).
Proof.
  intros T O R den fits L F a b.
  split; [rewrite dense_add_assign_strip, strip_returns|]; apply (dense_add_assign_returns O R den L fits F).
Qed.

(** The integer instances, spelled out. *)
Theorem C06_dense_add_int_checked : forall t (a b : list (int t)),
  ((exists r, dense_add (int_num true t) a b = Ok r) <->
   forall d, in_range t (dcoef Z_ring ival a d + dcoef Z_ring ival b d) = true) /\
  (forall r, dense_add (int_num true t) a b = Ok r ->
   forall d, (dcoef Z_ring ival r d = dcoef Z_ring ival a d + dcoef Z_ring ival b d)%Z).
Proof.
  intros t a b. split.
  - apply (C06_dense_add_returns _ _ _ _ _ (checked_lawful t) (checked_fits t)).
  - intros r H. apply (C06_dense_add _ _ _ _ (checked_lawful t)). auto.
Qed.

Theorem C06_dense_add_int_wrapping : forall t (a b : list (int t)),
  exists r, dense_add (int_num false t) a b = Ok r /\
   forall d, dcoef Z_ring ival r d = wrap t (dcoef Z_ring ival a d + dcoef Z_ring ival b d).
Proof.
  intros t a b. destruct (C06_dense_add_returns _ _ _ _ _ (wrapping_lawful t)
      (total_fits _ _ _ (wrapping_total t)) a b) as [[_ H] _].
  destruct (H (fun _ => Logic.I)) as (r & Hr). exists r. split; [exact Hr|].
  intros d. apply wred_result with (p := padd (dcoef Z_ring ival a) (dcoef Z_ring ival b)).
  intros e. rewrite (C06_dense_add _ _ _ _ (wrapping_lawful t) a b r (or_introl Hr)), wred_padd. unfold padd.
  rewrite !dcoef_wred. reflexivity.
Qed.

Example C06_case : rmap (map ival) (dense_add (int_num true I8) (map (mk_int I8) [100; 1; 7]%Z) (map (mk_int I8) [-100; 2; -7]%Z))
    = Ok [3; 0]%Z
  /\ dense_add (int_num true I8) (map (mk_int I8) [100; 1]%Z) (map (mk_int I8) [28; 2]%Z) = Panic POverflow
  /\ rmap (map ival) (dense_add (int_num false I8) (map (mk_int I8) [100; 1]%Z) (map (mk_int I8) [28; 2]%Z)) = Ok [-128; 3]%Z.
Proof. repeat split; vm_compute; reflexivity. Qed.

(** ** C07 *)

Theorem C07_dense_sub : forall T (O : num T) R den, lawful O R den -> forall a b r,
  dense_sub O a b = Ok r \/ dense_sub_assign O a b = Ok r \/ dense_sub_assign_ref O a b = Ok r ->
  peq (dcoef R den r) (psub (dcoef R den a) (dcoef R den b)).
Proof.
  intros T O R den L a b r [H|[H|H]].
  - eapply dense_sub_assign_coef; eassumption.
  - eapply dense_sub_assign_coef; eassumption.
  - eapply dense_sub_assign_ref_coef; eassumption.
Qed.

Theorem C07_dense_sub_returns : forall T (O : num T) R den fits, lawful O R den -> fits_ops O R den fits ->
  forall a b,
  ((exists r, dense_sub_assign O a b = Ok r) <-> forall d, fits (psub (dcoef R den a) (dcoef R den b) d)) /\
  ((exists r, dense_sub_assign_ref O a b = Ok r) <-> forall d, fits (psub (dcoef R den a) (dcoef R den b) d)).
Proof.
  intros T O R den fits L F a b. split.
  - apply (dense_sub_assign_returns O R den L fits F).
  - apply (dense_sub_assign_ref_returns O R den L fits F).
Qed.

Lemma zip_suffix_len {T} (f : T -> T -> res T) l o m r : zip_suffix f l o m = Ok r -> length r = length l.
Proof.
  unfold zip_suffix. intros H. inv_ok. apply slice_from_ok in E. destruct E as [E ->].
  apply zipM_length in E0. rewrite app_length, firstn_length, E0, skipn_length. lia.
Qed.

Lemma sub_assign_len {T} (O : num T) a b r :
  dense_sub_assign O a b = Ok r \/ dense_sub_assign_ref O a b = Ok r -> length r = Nat.max (length a) (length b).
Proof.
  unfold dense_sub_assign, dense_sub_assign_ref. intros [H|H];
    (destruct (Nat.ltb_spec (length a) (length b)); [|apply zip_suffix_len in H; lia]); inv_ok.
  - apply mapM_length in E. apply zipM_length in E0. rewrite app_length, E, E0, firstn_length, skipn_length. lia.
  - apply zipM_length in E. apply mapM_length in E0. rewrite app_length, E, E0, firstn_length. lia.
Qed.

(** By value and by reference give the same vector. *)
Theorem C07_dense_sub_ref_same : forall T (O : num T) R den fits, lawful O R den -> fits_ops O R den fits ->
  forall a b r, dense_sub_assign O a b = Ok r <-> dense_sub_assign_ref O a b = Ok r.
Proof.
  intros T O R den fits L F a b.
  destruct (C07_dense_sub_returns _ _ _ _ _ L F a b) as [R1 R2].
  assert (E : (exists r, dense_sub_assign O a b = Ok r) <-> (exists r, dense_sub_assign_ref O a b = Ok r))
    by (rewrite R1, R2; tauto).
  assert (U : forall x y, dense_sub_assign O a b = Ok x -> dense_sub_assign_ref O a b = Ok y -> x = y).
  { intros x y Hx Hy. pose proof (sub_assign_len O a b x (or_introl Hx)).
    pose proof (sub_assign_len O a b y (or_intror Hy)).
    assert (P : peq (dcoef R den x) (dcoef R den y)).
    { intros d. rewrite (dense_sub_assign_coef O R den L a b x Hx), (dense_sub_assign_ref_coef O R den L a b y Hy).
      reflexivity. }
    assert (M : map den x = map den y).
    { apply be_coef_inj; [rewrite !map_length; lia|exact P]. }
    clear -M L. revert y M. induction x as [|c x IH]; intros [|e y] M; simpl in M; try discriminate; [reflexivity|].
    injection M as M1 M2. apply (lw_inj _ _ _ L) in M1. f_equal; auto. }
  intros r. split; intros H.
  - destruct (proj1 E (ex_intro _ r H)) as (y & Hy). rewrite (U r y H Hy). exact Hy.
  - destruct (proj2 E (ex_intro _ r H)) as (y & Hy). rewrite <- (U y r Hy H). exact Hy.
Qed.

Theorem C07_dense_neg : forall T (O : num T) R den, lawful O R den -> forall a r,
  dense_neg O a = Ok r -> peq (dcoef R den r) (popp (dcoef R den a)).
Proof. exact @dense_neg_coef. Qed.

Theorem C07_dense_neg_returns : forall T (O : num T) R den fits, lawful O R den -> fits_ops O R den fits ->
  forall a, (exists r, dense_neg O a = Ok r) <-> forall d, fits (popp (dcoef R den a) d).
Proof. intros T O R den fits L. apply dense_neg_returns; exact L. Qed.

Theorem C07_dense_sub_int_checked : forall t (a b : list (int t)),
  ((exists r, dense_sub (int_num true t) a b = Ok r) <->
   forall d, in_range t (dcoef Z_ring ival a d - dcoef Z_ring ival b d) = true) /\
  (forall r, dense_sub (int_num true t) a b = Ok r ->
   forall d, (dcoef Z_ring ival r d = dcoef Z_ring ival a d - dcoef Z_ring ival b d)%Z).
Proof.
  intros t a b. split.
  - apply (C07_dense_sub_returns _ _ _ _ _ (checked_lawful t) (checked_fits t)).
  - intros r H. apply (C07_dense_sub _ _ _ _ (checked_lawful t)). auto.
Qed.

Theorem C07_dense_sub_int_wrapping : forall t (a b : list (int t)),
  exists r, dense_sub (int_num false t) a b = Ok r /\
   forall d, dcoef Z_ring ival r d = wrap t (dcoef Z_ring ival a d - dcoef Z_ring ival b d).
Proof.
  intros t a b. destruct (C07_dense_sub_returns _ _ _ _ _ (wrapping_lawful t)
      (total_fits _ _ _ (wrapping_total t)) a b) as [[_ H] _].
  destruct (H (fun _ => Logic.I)) as (r & Hr). exists r. split; [exact Hr|].
  intros d. apply wred_result with (p := psub (dcoef Z_ring ival a) (dcoef Z_ring ival b)).
  intros e. rewrite (C07_dense_sub _ _ _ _ (wrapping_lawful t) a b r (or_introl Hr)), wred_psub. unfold psub.
  rewrite !dcoef_wred. reflexivity.
Qed.

Example C07_case :
  rmap (map ival) (dense_sub (int_num true I8) (map (mk_int I8) [1; 2]%Z) (map (mk_int I8) [5; 0; 1; 9]%Z)) = Ok [-5; 0; 0; -7]%Z
  /\ rmap (map ival) (dense_sub_assign_ref (int_num true I8) (map (mk_int I8) [1; 2]%Z) (map (mk_int I8) [5; 0; 1; 9]%Z)) = Ok [-5; 0; 0; -7]%Z
  /\ rmap (map ival) (dense_neg (int_num true I8) (map (mk_int I8) [5; 0; -127]%Z)) = Ok [-5; 0; 127]%Z
  /\ dense_neg (int_num true I8) (map (mk_int I8) [5; 0; -128]%Z) = Panic POverflow.
Proof. repeat split; vm_compute; reflexivity. Qed.

(** ** C08 *)

Theorem C08_dense_mul : forall T (O : num T) R den, lawful O R den -> forall a b r,
  vec_ok O a -> vec_ok O b ->
  dense_mul O a b = Ok r \/ dense_mul_ref O a b = Ok r ->
  peq (dcoef R den r) (pmul (dcoef R den a) (dcoef R den b)).
Proof.
  intros T O R den L a b r Ha Hb [H|H].
  - eapply dense_mul_coef; eassumption.
  - eapply dense_mul_ref_coef; eassumption.
Qed.

(** The number of coefficients of the product, 1 + the sum of the degrees, fits in a [Vec]. *)
Definition product_fits {T} (O : num T) (R : comring) (a b : poly R) : Prop :=
  forall m n, is_degree a (Some m) -> is_degree b (Some n) -> (N.of_nat (m + n) + 1 <= n_max_len O)%N.

Lemma product_fits_strip {T} (O : num T) R den (L : lawful O R den) a b : vec_ok O a -> vec_ok O b ->
  product_fits O R (dcoef R den a) (dcoef R den b) ->
  (len (strip O a) + len (strip O b) - 1 <= n_max_len O)%N.
Proof.
  intros Ha Hb H. pose proof (dense_degree_spec O R den L a) as Da. pose proof (dense_degree_spec O R den L b) as Db.
  rewrite dense_degree_strip in Da, Db. unfold vec_ok in *.
  pose proof (len_strip O a). pose proof (len_strip O b).
  destruct (strip O a) as [|x sa], (strip O b) as [|y sb]; simpl dn in Da, Db.
  - unfold len in *; simpl length in *; lia.
  - unfold len in *; simpl length in *; lia.
  - unfold len in *; simpl length in *; lia.
  - specialize (H _ _ Da Db). unfold len in *. simpl length in *. lia.
Qed.

Lemma nonzero_strip {T} (O : num T) R den (L : lawful O R den) a b :
  ~ (peq (dcoef R den a) pzero /\ peq (dcoef R den b) pzero) -> strip O a <> [] \/ strip O b <> [].
Proof.
  intros H. destruct (strip O a) eqn:Ea; [|left; discriminate]. destruct (strip O b) eqn:Eb; [|right; discriminate].
  exfalso. apply H. split; apply (strip_nil O R den L); assumption.
Qed.

(** With total arithmetic (rationals, wrapping integers) it returns whenever a factor is
    non-zero and the result fits in memory. *)
Theorem C08_dense_mul_returns : forall T (O : num T) R den, lawful O R den -> total_ops O -> forall a b,
  vec_ok O a -> vec_ok O b -> product_fits O R (dcoef R den a) (dcoef R den b) ->
  ~ (peq (dcoef R den a) pzero /\ peq (dcoef R den b) pzero) ->
  (exists r, dense_mul O a b = Ok r) /\ exists r, dense_mul_ref O a b = Ok r.
Proof.
  intros T O R den L HT a b Ha Hb Hf Hn.
  assert (H : exists r, dense_mul O a b = Ok r).
  { apply (dense_mul_total O R den L HT); auto.
    - eapply product_fits_strip; eassumption.
    - eapply nonzero_strip; eassumption. }
  split; [exact H|]. rewrite dense_mul_ref_strip, strip_returns. exact H.
Qed.

(** Overflow-checked integers: it returns if the sums of the absolute values of the
    products are representable, *)
Theorem C08_dense_mul_int_checked_returns : forall t (a b : list (int t)),
  let O := int_num true t in let ca := dcoef Z_ring ival a in let cb := dcoef Z_ring ival b in
  vec_ok O a -> vec_ok O b -> product_fits O Z_ring ca cb -> ~ (peq ca pzero /\ peq cb pzero) ->
  (forall d, (@pmul Z_ring (fun i => Z.abs (ca i)) (fun i => Z.abs (cb i)) d <= imax t)%Z) ->
  exists r, dense_mul O a b = Ok r.
Proof.
  intros t a b O ca cb Ha Hb Hf Hn H. apply (dense_mul_bounded t a b); auto.
  - apply (product_fits_strip _ _ _ (checked_lawful t)); assumption.
  - eapply nonzero_strip; [apply (checked_lawful t)|exact Hn].
Qed.

(** and for non-negative coefficients exactly when the product's coefficients are. *)
Theorem C08_dense_mul_int_nonneg_returns : forall t (a b : list (int t)),
  let O := int_num true t in let ca := dcoef Z_ring ival a in let cb := dcoef Z_ring ival b in
  vec_ok O a -> vec_ok O b -> product_fits O Z_ring ca cb -> ~ (peq ca pzero /\ peq cb pzero) ->
  (forall d, (0 <= ca d)%Z) -> (forall d, (0 <= cb d)%Z) ->
  (exists r, dense_mul O a b = Ok r) <-> (forall d, in_range t (pmul ca cb d) = true).
Proof.
  intros t a b O ca cb Ha Hb Hf Hn Pa Pb. apply (dense_mul_nonneg t a b); auto.
  - apply (product_fits_strip _ _ _ (checked_lawful t)); assumption.
  - eapply nonzero_strip; [apply (checked_lawful t)|exact Hn].
Qed.

Theorem C08_dense_mul_int_wrapping : forall t (a b r : list (int t)),
  vec_ok (int_num false t) a -> vec_ok (int_num false t) b ->
  dense_mul (int_num false t) a b = Ok r ->
  forall d, dcoef Z_ring ival r d = wrap t (pmul (dcoef Z_ring ival a) (dcoef Z_ring ival b) d).
Proof.
  intros t a b r Ha Hb H. apply wred_result. intros d.
  rewrite (C08_dense_mul _ _ _ _ (wrapping_lawful t) a b r Ha Hb (or_introl H)), wred_pmul.
  apply pmul_ext; apply dcoef_wred.
Qed.

Example C08_case :
  rmap (map ival) (dense_mul (int_num true I8) (map (mk_int I8) [0; 1; 2]%Z) (map (mk_int I8) [3; 0; -4]%Z)) = Ok [3; 6; -4; -8]%Z
  /\ rmap (map ival) (dense_mul (int_num false U8) (map (mk_int U8) [16; 1]%Z) (map (mk_int U8) [16; 2]%Z)) = Ok [0; 48; 2]%Z
  /\ rmap (map ival) (dense_mul (int_num true I8) (map (mk_int I8) [0; 0]%Z) (map (mk_int I8) [3; 0; -4]%Z)) = Ok [0; 0]%Z
  /\ dense_mul (int_num true I8) (map (mk_int I8) [16; 2]%Z) (map (mk_int I8) [8; 0]%Z) = Panic POverflow.
Proof. repeat split; vm_compute; reflexivity. Qed.

(** ** C09: refuted *)

(** Full statement: [peq a 0 -> vec_ok a -> vec_ok b -> exists r, dense_mul a b = Ok r /\ peq r 0]. *)
Theorem C09_zero_times_nonzero_partial : forall T (O : num T) R den, lawful O R den -> total_ops O -> forall a b,
  vec_ok O a -> vec_ok O b -> peq (dcoef R den a) pzero -> ~ peq (dcoef R den b) pzero ->
  (exists r, dense_mul O a b = Ok r /\ peq (dcoef R den r) pzero) /\
  (exists r, dense_mul O b a = Ok r /\ peq (dcoef R den r) pzero).
Proof.
  intros T O R den L HT a b Ha Hb Za Nb.
  assert (F1 : product_fits O R (dcoef R den a) (dcoef R den b)).
  { intros m n [Hm _] _. exfalso. apply Hm, Za. }
  assert (F2 : product_fits O R (dcoef R den b) (dcoef R den a)).
  { intros m n _ [Hm _]. exfalso. apply Hm, Za. }
  split.
  - destruct (proj1 (C08_dense_mul_returns _ _ _ _ L HT a b Ha Hb F1 ltac:(tauto))) as (r & Hr).
    exists r. split; [exact Hr|]. intros d. rewrite (dense_mul_coef O R den L a b r Ha Hb Hr).
    apply pmul_zero_l, Za.
  - destruct (proj1 (C08_dense_mul_returns _ _ _ _ L HT b a Hb Ha F2 ltac:(tauto))) as (r & Hr).
    exists r. split; [exact Hr|]. intros d. rewrite (dense_mul_coef O R den L b a r Hb Ha Hr).
    apply pmul_zero_r, Za.
Qed.

(** Two zero factors always panic, whatever the coefficient type and mode. *)
Theorem C09_zero_times_zero_panics : forall T (O : num T) R den, lawful O R den -> forall a b,
  peq (dcoef R den a) pzero -> peq (dcoef R den b) pzero ->
  (exists k, dense_mul O a b = Panic k) /\ (exists k, dense_mul_ref O a b = Panic k).
Proof.
  intros T O R den L a b Ha Hb.
  destruct (slice_mul_zero O R den L a b) as (k & H).
  - apply (strip_nil O R den L), Ha.
  - apply (strip_nil O R den L), Hb.
  - split; exists k; [exact H|]. unfold dense_mul_ref. rewrite H. reflexivity.
Qed.

Theorem C09_zero_times_zero_refuted : forall chk t, exists a b : list (int t),
  peq (dcoef Z_ring ival a) pzero /\ forall r, dense_mul (int_num chk t) a b <> Ok r.
Proof.
  intros chk t. exists [], []. split; [intros d; apply dcoef_nil|]. intros r H.
  assert (E : exists k, dense_mul (int_num chk t) [] [] = Panic k).
  { destruct chk.
    - apply (C09_zero_times_zero_panics _ _ _ _ (checked_lawful t)); intros d; apply dcoef_nil.
    - apply (C09_zero_times_zero_panics _ _ _ _ (wrapping_lawful t)); intros d; apply dcoef_nil. }
  destruct E as (k & E). congruence.
Qed.

Example C09_case : dense_mul (int_num true I32) [] [] = Panic POverflow
  /\ dense_mul (int_num false I32) (map (mk_int I32) [0]%Z) (map (mk_int I32) [0; 0]%Z) = Panic PCapacity.
Proof. split; vm_compute; reflexivity. Qed.

(** ** C10 *)

Theorem C10_dense_pow : forall T (O : num T) R den, lawful O R den -> (1 <= n_max_len O)%N ->
  forall fuel p e r, vec_ok O p -> dense_pow O fuel p e = Ok r ->
  peq (dcoef R den r) (ppow (dcoef R den p) (N.to_nat e)).
Proof.
  intros T O R den L Hc fuel p e r Hp H. apply (dense_pow_coef_gen O R den L fuel p e r Hp Hc H).
Qed.

(** The recursion ends: depth 2 * (bits of e) + 1 is enough. *)
Theorem C10_dense_pow_terminates : forall T (O : num T), prompt O -> forall p e fuel,
  (1 + 2 * N.to_nat (N.size e) <= fuel)%nat -> dense_pow O fuel p e <> Fuel.
Proof. intros T O HP p e fuel H. apply (dense_pow_prompt O HP). exact H. Qed.

(** Over an integral domain with total arithmetic every power of a non-zero polynomial is
    computed if it fits in memory; *)
Theorem C10_dense_pow_returns : forall T (O : num T) R den, lawful O R den -> total_ops O -> domain R ->
  @r1 R <> r0 -> forall p e n fuel,
  vec_ok O p -> is_degree (dcoef R den p) (Some n) -> (N.of_nat n * e + 1 <= n_max_len O)%N ->
  (1 + 2 * N.to_nat (N.size e) <= fuel)%nat -> exists r, dense_pow O fuel p e = Ok r.
Proof.
  intros T O R den L HT HD H01 p e n fuel Hp Hn Hc Hf.
  pose proof (dense_degree_spec O R den L p) as Da. pose proof (is_degree_unique _ _ _ Hn Da) as E.
  rewrite dense_degree_strip in E. destruct (strip O p) as [|x s] eqn:Es; [discriminate|].
  injection E as E.
  destruct (dense_pow_total O R den L HD HT H01 fuel p e Hf Hp) as (r & Hr & _).
  - rewrite Es. discriminate.
  - rewrite Es. unfold len in *. simpl length. rewrite Nnat.Nat2N.id in E. subst n.
    replace (N.of_nat (S (length s)) - 1)%N with (N.of_nat (length s)) by lia. exact Hc.
  - eauto.
Qed.

(** but no power >= 2 of the zero polynomial. *)
Theorem C10_dense_pow_zero_panics : forall T (O : num T) R den, lawful O R den -> prompt O -> forall p e fuel,
  peq (dcoef R den p) pzero -> (2 <= e)%N -> (1 + 2 * N.to_nat (N.size e) <= fuel)%nat ->
  exists k, dense_pow O fuel p e = Panic k.
Proof.
  intros T O R den L HP p e fuel Hz He Hf. apply (dense_pow_zero O R den L HP); auto.
  apply (strip_nil O R den L), Hz.
Qed.

Example C10_case :
  rmap (map ival) (dense_pow (int_num true I32) 10 (map (mk_int I32) [0; 1; -1]%Z) 5) = Ok [1; -5; 10; -10; 5; -1]%Z
  /\ rmap (map ival) (dense_pow (int_num true I32) 10 (map (mk_int I32) [0; 1; -1]%Z) 0) = Ok [1]%Z
  /\ dense_pow (int_num false U8) 10 (map (mk_int U8) [16]%Z) 4 = Panic PCapacity.
Proof. repeat split; vm_compute; reflexivity. Qed.

(** ** C11 *)

Theorem C11_dense_scale : forall T (O : num T) R den, lawful O R den -> forall a c r,
  dense_scale O a c = Ok r \/ dense_scale_assign O a c = Ok r ->
  peq (dcoef R den r) (pscale (dcoef R den a) (den c)).
Proof.
  intros T O R den L a c r [H|H].
  - rewrite dense_scale_strip in H. inv_ok.
    eapply peq_trans; [apply (strip_coef O R den L)|eapply dense_scale_assign_coef; eassumption].
  - eapply dense_scale_assign_coef; eassumption.
Qed.

Theorem C11_dense_scale_returns : forall T (O : num T) R den fits, lawful O R den -> fits_ops O R den fits ->
  forall a c,
  ((exists r, dense_scale O a c = Ok r) <-> forall d, fits (pscale (dcoef R den a) (den c) d)) /\
  ((exists r, dense_scale_assign O a c = Ok r) <-> forall d, fits (pscale (dcoef R den a) (den c) d)).
Proof.
  intros T O R den fits L F a c.
  split; [rewrite dense_scale_strip, strip_returns|]; apply (dense_scale_assign_returns O R den L fits F).
Qed.

(** Every stored coefficient is divided with the type's own division (any type, floats
    included), and [/] then only strips leading zeros. *)
Theorem C11_dense_div_scalar : forall T (O : num T) a c r,
  dense_div_scalar_assign O a c = Ok r <-> Forall2 (fun x y => div O x c = Ok y) a r.
Proof. intros. apply mapM_Forall2. Qed.

Theorem C11_dense_div_scalar_op : forall T (O : num T) a c,
  dense_div_scalar O a c = (r <- dense_div_scalar_assign O a c ;; dense_new O r).
Proof. intros. unfold dense_div_scalar, dense_div_scalar_assign. reflexivity. Qed.

Theorem C11_dense_div_scalar_exact : forall T (O : num T) R den, lawful O R den -> exact_div O R den -> forall a c,
  is_zero O c = false ->
  exists r, dense_div_scalar O a c = Ok r /\ peq (pscale (dcoef R den r) (den c)) (dcoef R den a).
Proof.
  intros T O R den L X a c Hc. destruct (dense_div_scalar_exact O R den a c X Hc) as (r & Hr & Hp).
  exists (strip O r). rewrite dense_div_scalar_strip, Hr. split; [reflexivity|].
  intros d. rewrite <- Hp. unfold pscale. rewrite (strip_coef O R den L). reflexivity.
Qed.

Theorem C11_dense_div_scalar_by_zero : forall chk t (a : list (int t)) c, a <> [] -> ival c = 0%Z ->
  dense_div_scalar (int_num chk t) a c = Panic PDivZero /\ dense_div_scalar_assign (int_num chk t) a c = Panic PDivZero.
Proof.
  intros chk t a c Ha Hc. unfold dense_div_scalar, dense_div_scalar_assign.
  destruct a as [|x a]; [congruence|]. simpl. unfold idiv. rewrite Hc. simpl. auto.
Qed.

Example C11_case :
  rmap (map ival) (dense_scale (int_num true I8) (map (mk_int I8) [0; 5; 0; -7]%Z) (mk_int I8 3)) = Ok [15; 0; -21]%Z
  /\ rmap (map ival) (dense_div_scalar (int_num true I8) (map (mk_int I8) [2; 5; 0; -7]%Z) (mk_int I8 3)) = Ok [1; 0; -2]%Z
  /\ dense_div_scalar (int_num true I8) (map (mk_int I8) [-128]%Z) (mk_int I8 (-1)) = Panic POverflow.
Proof. repeat split; vm_compute; reflexivity. Qed.
