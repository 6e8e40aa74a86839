(** Property C92: polynomials that compare equal can replace one another. *)

From Coq Require Import List NArith ZArith Lia Bool Sorted.
From Coq Require Import ZifyBool ZifyNat ZifyN.
From Verif Require Import Base Num Spec SpecFacts Laws Terms Dense DenseFacts DenseMul DenseDiv Sparse SparseFacts SparseArith SparseCalc Mono Bino Trino ArrPoly FixedFacts.
From Verif Require Import P_Dense1 P_Dense2 P_Sparse1 P_Sparse2 P_Fixed1.
Import ListNotations.

(** ** Specification *)

(** No entry of the map is zero. *)
Definition no_zero_entry {T} (O : num T) (m : bmap T) : Prop := Forall (fun kv => is_zero O (snd kv) = false) m.

(** Zero is neutral, and products with zero return zero, at run time. *)
Definition zero_returns {T} (O : num T) : Prop :=
  (forall x, mul O (zero O) x = Ok (zero O)) /\ (forall x, add O (zero O) x = Ok x).

(** Both return, with results that compare equal, or neither returns. *)
Definition same_outcome {T} (O : num T) (x y : res (list T)) : Prop :=
  ((exists r, x = Ok r) <-> (exists s, y = Ok s)) /\ forall r s, x = Ok r -> y = Ok s -> dense_eq O r s = Ok true.

(** ** Lemmas *)
Section Canon.
Context {T : Type} (O : num T) (R : comring) (den : T -> car R) (L : lawful O R den).

Lemma dcoef_same_length a b : length a = length b -> peq (dcoef R den a) (dcoef R den b) -> a = b.
Proof. apply (dcoef_list_inj O R den L). Qed.
Lemma trimmed_length a b : trimmed O a -> peq (dcoef R den a) (dcoef R den b) -> (length a <= length b)%nat.
Proof.
  intros Ha H. destruct a as [|c a]; [cbn; lia|]. cbn in Ha. destruct (Nat.le_gt_cases (length (c :: a)) (length b)) as [K|K]; [exact K|exfalso].
  specialize (H (length a)). rewrite dcoef_cons, Nat.eqb_refl, dcoef_overflow in H by (cbn in K; lia).
  assert (is_zero O c = true) by (apply (lw_is_zero _ _ _ L), H). congruence.
Qed.
Lemma trimmed_unique a b : trimmed O a -> trimmed O b -> peq (dcoef R den a) (dcoef R den b) -> a = b.
Proof.
  intros Ha Hb H. apply dcoef_same_length; [|exact H]. pose proof (trimmed_length a b Ha H). pose proof (trimmed_length b a Hb (peq_sym _ _ H)). lia.
Qed.
Lemma strip_unique a b : peq (dcoef R den a) (dcoef R den b) -> strip O a = strip O b.
Proof.
  intros H. apply trimmed_unique; try apply trimmed_strip. eapply peq_trans; [apply (strip_coef O R den L)|].
  eapply peq_trans; [exact H|]. apply peq_sym, (strip_coef O R den L).
Qed.
Lemma dense_eq_peq a b : dense_eq O a b = Ok true -> peq (dcoef R den a) (dcoef R den b).
Proof. intros H. destruct (C05_dense_eq T O R den L a b) as (r & E & K). apply K. congruence. Qed.
Lemma peq_dense_eq a b : peq (dcoef R den a) (dcoef R den b) -> dense_eq O a b = Ok true.
Proof. intros H. destruct (C05_dense_eq T O R den L a b) as (r & E & K). rewrite E. f_equal. apply K, H. Qed.

Lemma filter_rev' {A} (p : A -> bool) (l : list A) : filter p (rev l) = rev (filter p l).
Proof. induction l as [|x l IH]; [reflexivity|]. cbn. rewrite filter_app, IH. cbn. destruct (p x); [reflexivity|apply app_nil_r]. Qed.
Lemma sparse_trim_unique a b : swf a -> swf b -> peq (scoef R den a) (scoef R den b) -> sparse_trim O a = sparse_trim O b.
Proof.
  intros Ha Hb H. pose proof (sparse_terms_spec O R den L a (proj1 Ha)) as La. pose proof (sparse_terms_spec O R den L b (proj1 Hb)) as Lb.
  assert (D : dterms R den (sparse_terms O a) = dterms R den (sparse_terms O b)).
  { eapply is_listing_unique; [exact La|]. eapply is_listing_ext; [apply peq_sym, H|exact Lb]. }
  unfold sparse_terms in D. rewrite !filter_rev' in D. unfold sparse_trim.
  rewrite <- (rev_involutive (filter _ a)), <- (rev_involutive (filter _ b)). f_equal. revert D.
  generalize (rev (filter (fun kv => negb (is_zero O (snd kv))) a)) as x, (rev (filter (fun kv => negb (is_zero O (snd kv))) b)) as y.
  induction x as [|[k v] x IH]; intros [|[k' v'] y] D; try discriminate D; [reflexivity|].
  cbn in D. injection D as D1 D2 D3. apply (lw_inj _ _ _ L) in D1. f_equal; [|apply IH, D3]. congruence.
Qed.
Lemma no_zero_trim m : no_zero_entry O m -> sparse_trim O m = m.
Proof. unfold sparse_trim. induction 1 as [|kv m H _ IH]; [reflexivity|]. cbn. rewrite H, IH. reflexivity. Qed.
End Canon.

(** Leading zeros do not change an evaluation at all. *)
Lemma horner_zeros {T} (O : num T) x pre l : zero_returns O -> Forall (fun c => c = zero O) pre -> horner O x (pre ++ l) = horner O x l.
Proof.
  intros [Z1 Z2] H. unfold horner. induction H as [|c pre -> _ IH]; [reflexivity|]. cbn [app foldM]. rewrite Z2. cbn [bind]. rewrite Z1. cbn [bind]. exact IH.
Qed.
Lemma split_last_app {T} (l : list T) c : split_last (l ++ [c]) = Some (c, l).
Proof. induction l as [|x l IH]; [reflexivity|]. cbn. rewrite IH. reflexivity. Qed.
Lemma eval_zeros {T} (O : num T) x pre l : zero_returns O -> Forall (fun c => c = zero O) pre -> dense_eval O (pre ++ l) x = dense_eval O l x.
Proof.
  intros Z H. unfold dense_eval. destruct l as [|c l _] using rev_ind.
  - rewrite app_nil_r. destruct pre as [|c pre _] using rev_ind; [reflexivity|]. apply Forall_app in H. destruct H as [H1 H2]. inversion H2; subst.
    rewrite split_last_app. destruct (is_zero O x); [reflexivity|]. rewrite <- (app_nil_r pre), (horner_zeros O x pre [] Z H1). cbn. apply Z.
  - rewrite app_assoc, !split_last_app. destruct (is_zero O x); [reflexivity|]. rewrite horner_zeros by assumption. reflexivity.
Qed.

(** Zeros in front of the highest coefficient: nothing but [strip] is looked at. *)
Section Front.
Context {T : Type} (O : num T).

Lemma strip_front pre l : all_zero O pre -> strip O (pre ++ l) = strip O l.
Proof. intros H. unfold strip. induction H as [|c pre Hc _ IH]; [reflexivity|]. cbn. rewrite Hc. exact IH. Qed.
Lemma first_term_same a b : strip O a = strip O b -> first_term O a = first_term O b.
Proof. intros E. rewrite !first_term_strip, E. reflexivity. Qed.
Lemma degree_same a b : strip O a = strip O b -> dense_degree O a = dense_degree O b.
Proof. intros E. rewrite !dense_degree_strip, E. reflexivity. Qed.
Lemma terms_same a b : strip O a = strip O b -> dense_terms O a = dense_terms O b.
Proof. intros E. unfold dense_terms. rewrite !slice_from_strip, E. reflexivity. Qed.
Lemma mul_same a b a' b' : strip O a = strip O a' -> strip O b = strip O b' -> slice_mul O a b = slice_mul O a' b'.
Proof. intros Ea Eb. unfold slice_mul. rewrite !slice_from_strip, Ea, Eb. reflexivity. Qed.
Lemma pow_same a a' : strip O a = strip O a' -> forall fuel e, dense_pow O fuel a e = dense_pow O fuel a' e.
Proof.
  intros E. induction fuel as [|fuel IH]; intros e; [reflexivity|]. cbn [dense_pow].
  destruct (e =? 0)%N; [reflexivity|]. destruct (e =? 1)%N; [rewrite !dense_new_ok, E; reflexivity|].
  unfold dense_mul_ref. destruct (e =? 2)%N; [rewrite (mul_same a a a' a' E E); reflexivity|].
  destruct (e mod 2 =? 0)%N; rewrite IH; [reflexivity|]. destruct (dense_pow O fuel a' (e - 1)) as [h| |]; cbn [bind]; try reflexivity.
  rewrite (mul_same a h a' h E eq_refl). reflexivity.
Qed.
Lemma len_strip l : usub (n_chk O) (len l) (N.of_nat (first_nonzero_index O l)) = Ok (len (strip O l)).
Proof.
  rewrite first_nonzero_index_fnz. pose proof (fnz_le O l). unfold usub, strip, len. rewrite skipn_length.
  destruct (N.leb_spec (N.of_nat (fnz O l)) (N.of_nat (length l))); [|lia]. f_equal. lia.
Qed.
Lemma derivative_same a b : strip O a = strip O b -> dense_derivative O a = dense_derivative O b.
Proof. intros E. unfold dense_derivative. cbv zeta. rewrite !len_strip, !slice_from_strip, E. reflexivity. Qed.
Lemma integral_same a b : strip O a = strip O b -> dense_integral O a = dense_integral O b.
Proof. intros E. unfold dense_integral. cbv zeta. rewrite !len_strip, !slice_from_strip, E. reflexivity. Qed.

Lemma fnz_front pre l : all_zero O pre -> fnz O (pre ++ l) = (length pre + fnz O l)%nat.
Proof. induction 1 as [|c pre Hc _ IH]; [reflexivity|]. cbn. rewrite Hc, IH. reflexivity. Qed.
Lemma vec_sub_front pre l c sd rhs rhs' b m s : all_zero O pre -> first_term O l = TTerm c sd -> first_term O rhs = TTerm b m ->
  strip O rhs = strip O rhs' -> vec_sub_w_scale O (pre ++ l) sd rhs m s = rmap (app pre) (vec_sub_w_scale O l sd rhs' m s).
Proof.
  intros Hp Hl Hr E. assert (Hl' : first_term O (pre ++ l) = TTerm c sd) by (rewrite <- Hl; apply first_term_same, strip_front, Hp).
  assert (Hr' : first_term O rhs' = TTerm b m) by (rewrite <- Hr; symmetry; apply first_term_same, E).
  rewrite (vec_sub_unfold O (pre ++ l) c sd rhs b m s Hl' Hr), (vec_sub_unfold O l c sd rhs' b m s Hl Hr'), (strip_front pre l Hp), E.
  destruct (zipM _ _ _) as [t| |]; cbn [bind rmap]; try reflexivity. rewrite fnz_front by exact Hp. f_equal.
  rewrite firstn_app_2, app_assoc. reflexivity.
Qed.
Lemma div_loop_front rhs rhs' b m : strip O rhs = strip O rhs' -> first_term O rhs = TTerm b m -> forall pre, all_zero O pre -> forall fuel off c sd l dv,
  first_term O l = TTerm c sd ->
  div_loop O fuel rhs b m off c sd (pre ++ l) dv = rmap (fun qr => (fst qr, pre ++ snd qr)) (div_loop O fuel rhs' b m off c sd l dv).
Proof.
  intros E Hr pre Hp. induction fuel as [|fuel IH]; intros off c sd l dv Hl; [reflexivity|]. cbn [div_loop].
  destruct (m <=? sd)%N; [|reflexivity]. destruct (div O c b) as [s| |]; cbn [bind rmap]; try reflexivity.
  rewrite (vec_sub_front pre l c sd rhs rhs' b m s Hp Hl Hr E). destruct (vec_sub_w_scale O l sd rhs' m s) as [l'| |]; cbn [bind rmap]; try reflexivity.
  destruct (usub _ off sd) as [i| |]; cbn [bind rmap]; try reflexivity. destruct (update dv i _) as [dv'| |]; cbn [bind rmap]; try reflexivity.
  rewrite (first_term_same (pre ++ l') l' (strip_front pre l' Hp)). destruct (first_term O l') as [|c' d'] eqn:F; [reflexivity|]. apply IH, F.
Qed.
Lemma div_front fuel pre p rhs rhs' : all_zero O pre -> strip O rhs = strip O rhs' ->
  dense_div_mod O fuel (pre ++ p) rhs = dense_div_mod O fuel p rhs' \/
  (dense_div_mod O fuel (pre ++ p) rhs = Ok ([], pre ++ p) /\ dense_div_mod O fuel p rhs' = Ok ([], p)).
Proof.
  intros Hp E. unfold dense_div_mod. rewrite <- (first_term_same rhs rhs' E). destruct (first_term O rhs) as [|b m] eqn:Fr; [left; reflexivity|].
  rewrite (first_term_same (pre ++ p) p (strip_front pre p Hp)). destruct (first_term O p) as [|c sd] eqn:Fp; [right; split; reflexivity|].
  destruct (sd <? m)%N; [right; split; reflexivity|left].
  destruct (usub _ sd m) as [n1| |]; cbn [bind]; try reflexivity. destruct (uadd _ n1 1) as [n| |]; cbn [bind]; try reflexivity.
  destruct (vec_repeat _ _ n) as [dv| |]; cbn [bind]; try reflexivity. rewrite (div_loop_front rhs rhs' b m E Fr pre Hp fuel sd c sd p dv Fp).
  destruct (div_loop O fuel rhs' b m sd c sd p dv) as [[q r]| |]; cbn [bind rmap fst snd]; try reflexivity.
  rewrite !dense_new_ok, (strip_front pre r Hp). reflexivity.
Qed.
Lemma rem_assign_loop_front rhs rhs' b m : strip O rhs = strip O rhs' -> first_term O rhs = TTerm b m -> forall pre, all_zero O pre -> forall fuel s c sd l,
  first_term O l = TTerm c sd ->
  rem_assign_loop O fuel rhs b m s sd (pre ++ l) = rmap (app pre) (rem_assign_loop O fuel rhs' b m s sd l).
Proof.
  intros E Hr pre Hp. induction fuel as [|fuel IH]; intros s c sd l Hl; [reflexivity|]. cbn [rem_assign_loop].
  destruct (m <=? sd)%N; [|reflexivity].
  rewrite (vec_sub_front pre l c sd rhs rhs' b m s Hp Hl Hr E). destruct (vec_sub_w_scale O l sd rhs' m s) as [l'| |]; cbn [bind rmap]; try reflexivity.
  rewrite (first_term_same (pre ++ l') l' (strip_front pre l' Hp)). destruct (first_term O l') as [|c' d'] eqn:F; [reflexivity|].
  destruct (div O c' b) as [s'| |]; cbn [bind rmap]; try reflexivity. apply (IH s' c' d' l' F).
Qed.
Lemma rem_assign_front fuel pre p rhs rhs' : all_zero O pre -> strip O rhs = strip O rhs' ->
  dense_rem_assign O fuel (pre ++ p) rhs = rmap (app pre) (dense_rem_assign O fuel p rhs').
Proof.
  intros Hp E. unfold dense_rem_assign. rewrite <- (first_term_same rhs rhs' E). destruct (first_term O rhs) as [|b m] eqn:Fr; [reflexivity|].
  rewrite (first_term_same (pre ++ p) p (strip_front pre p Hp)). destruct (first_term O p) as [|c sd] eqn:Fp; [reflexivity|].
  destruct (sd <? m)%N; [reflexivity|]. destruct (div O c b) as [s| |]; cbn [bind rmap]; try reflexivity.
  apply (rem_assign_loop_front rhs rhs' b m E Fr pre Hp fuel s c sd p Fp).
Qed.
End Front.

(** ** Theorems *)

(** After [trim], and after construction by [new], equal polynomials are the same value. *)
Theorem C92_trim : forall T (O : num T) R den, lawful O R den ->
  (forall a b, dense_eq O a b = Ok true -> dense_trim O a = dense_trim O b /\ dense_new O a = dense_new O b) /\
  (forall a b, swf a -> swf b -> sparse_eq O a b = true -> sparse_trim O a = sparse_trim O b).
Proof.
  intros T O R den L. split.
  - intros a b H. apply (dense_eq_peq O R den L) in H. pose proof (strip_unique O R den L a b H) as E.
    pose proof (dense_new_ok O a) as Na. pose proof (dense_new_ok O b) as Nb. split; [|congruence]. change (dense_new O a = dense_new O b). congruence.
  - intros a b Ha Hb H. apply (sparse_trim_unique O R den L a b Ha Hb). apply (C05_sparse_eq T O R den L a b Ha Hb), H.
Qed.

(** Values without superfluous zeros. *)
Theorem C92_canonical : forall T (O : num T) R den, lawful O R den ->
  (forall a b, trimmed O a -> trimmed O b -> dense_eq O a b = Ok true -> a = b) /\
  (forall a b, swf a -> swf b -> no_zero_entry O a -> no_zero_entry O b -> sparse_eq O a b = true -> a = b) /\
  (forall a b, bino_eq O a b = true -> a = b) /\ (forall a b, trino_eq O a b = true -> a = b) /\
  (forall a b, length a = length b -> arr_eq O a b = true -> a = b) /\
  (forall a b, mono_eq O a b = true -> a = b \/ (is_zero O (mcoef a) = true /\ is_zero O (mcoef b) = true)).
Proof.
  intros T O R den L. assert (E : forall x y, eqb O x y = true -> x = y) by (intros x y H; apply (lw_inj _ _ _ L), (lw_eqb _ _ _ L), H).
  split; [|split; [|split; [|split; [|split]]]].
  - intros a b Ha Hb H. apply (trimmed_unique O R den L); auto. apply (dense_eq_peq O R den L), H.
  - intros a b Ha Hb Na Nb H. rewrite <- (no_zero_trim O a Na), <- (no_zero_trim O b Nb). apply (C92_trim T O R den L); auto.
  - intros [a0 a1] [b0 b1] H. unfold bino_eq in H. cbn in H. apply andb_true_iff in H. destruct H as [H1 H2]. f_equal; auto.
  - intros [a0 a1 a2] [b0 b1 b2] H. unfold trino_eq in H. cbn in H. rewrite !andb_true_iff in H. destruct H as (H1 & H2 & H3). f_equal; auto.
  - intros a b Hl H. apply (dcoef_same_length O R den L); [exact Hl|]. apply (C05_fixed_eq T O R den L); auto.
  - intros [c k] [c' k'] H. unfold mono_eq, mono_as_term in H. cbn in *. unfold term_new in H. destruct (is_zero O c), (is_zero O c'); cbn in H; try discriminate H; auto.
    left. apply andb_true_iff in H. destruct H as [H1 H2]. f_equal; [apply E, H1|lia].
Qed.

(** Dense polynomials: whatever is asked of equal ones, the answers are the same. *)
Theorem C92_dense : forall T (O : num T) R den, lawful O R den -> forall a a' b b',
  dense_eq O a a' = Ok true -> dense_eq O b b' = Ok true ->
  dense_degree O a = dense_degree O a' /\ dense_terms O a = dense_terms O a' /\
  dense_mul O a b = dense_mul O a' b' /\ dense_mul_ref O a b = dense_mul_ref O a' b' /\
  (forall fuel e, dense_pow O fuel a e = dense_pow O fuel a' e) /\
  dense_derivative O a = dense_derivative O a' /\ dense_integral O a = dense_integral O a' /\
  dense_eq O a b = dense_eq O a' b'.
Proof.
  intros T O R den L a a' b b' Ha Hb. pose proof (strip_unique O R den L a a' (dense_eq_peq O R den L a a' Ha)) as Ea.
  pose proof (strip_unique O R den L b b' (dense_eq_peq O R den L b b' Hb)) as Eb.
  split; [apply degree_same, Ea|]. split; [apply terms_same, Ea|]. split; [apply mul_same; assumption|].
  split; [unfold dense_mul_ref; rewrite (mul_same O a b a' b' Ea Eb); reflexivity|]. split; [apply pow_same, Ea|].
  split; [apply derivative_same, Ea|]. split; [apply integral_same, Ea|].
  unfold dense_eq. rewrite (terms_same O a a' Ea), (terms_same O b b' Eb). reflexivity.
Qed.

(** The same outcome of a division: the same quotient and remainders that compare equal, or
    the same panic. *)
Definition same_div {T} (O : num T) (x y : res (list T * list T)) : Prop :=
  match x, y with
  | Ok (q, r), Ok (q', r') => q = q' /\ dense_eq O r r' = Ok true
  | Ok _, _ | _, Ok _ => False
  | _, _ => x = y
  end.
Definition same_rem {T} (O : num T) (x y : res (list T)) : Prop :=
  match x, y with
  | Ok r, Ok r' => dense_eq O r r' = Ok true
  | Ok _, _ | _, Ok _ => False
  | _, _ => x = y
  end.

Theorem C92_dense_division : forall T (O : num T) R den, lawful O R den -> forall a a' b b',
  dense_eq O a a' = Ok true -> dense_eq O b b' = Ok true -> forall fuel,
  same_div O (dense_div_mod O fuel a b) (dense_div_mod O fuel a' b') /\
  dense_floor_div O fuel a b = dense_floor_div O fuel a' b' /\
  same_rem O (dense_rem_assign O fuel a b) (dense_rem_assign O fuel a' b').
Proof.
  intros T O R den L a a' b b' Ha Hb fuel. pose proof (strip_unique O R den L a a' (dense_eq_peq O R den L a a' Ha)) as Ea.
  pose proof (strip_unique O R den L b b' (dense_eq_peq O R den L b b' Hb)) as Eb.
  destruct (strip_split O a) as (pre & Sa & _ & Za & _). destruct (strip_split O a') as (pre' & Sa' & _ & Za' & _). rewrite <- Ea in Sa'.
  set (p := strip O a) in *. clearbody p. subst a a'. clear Ea.
  assert (Q : forall u v, dense_eq O u u = Ok true /\ (all_zero O v -> dense_eq O (v ++ u) u = Ok true /\ dense_eq O u (v ++ u) = Ok true)).
  { intros u v. split; [apply (peq_dense_eq O R den L), peq_refl|]. intros Z.
    split; apply (peq_dense_eq O R den L); [|apply peq_sym]; apply (dcoef_zeros O R den L), Z. }
  assert (Q2 : forall u, dense_eq O (pre ++ u) (pre' ++ u) = Ok true).
  { intros u. apply (peq_dense_eq O R den L). eapply peq_trans; [apply (dcoef_zeros O R den L), Za|]. apply peq_sym, (dcoef_zeros O R den L), Za'. }
  assert (D : same_div O (dense_div_mod O fuel (pre ++ p) b) (dense_div_mod O fuel (pre' ++ p) b')).
  { pose proof (div_front O fuel pre p b b' Za Eb) as D1. pose proof (div_front O fuel pre' p b' b' Za' eq_refl) as D2.
    destruct D1 as [->|[-> E1]]; destruct D2 as [->|[-> E2]]; try rewrite E1; try rewrite E2; cbn.
    - destruct (dense_div_mod O fuel p b') as [[q r]| |]; cbn; try reflexivity. split; [reflexivity|apply Q, []].
    - split; [reflexivity|]. apply Q, Za'.
    - split; [reflexivity|]. apply Q, Za.
    - split; [reflexivity|]. apply Q2. }
  split; [exact D|]. split.
  - unfold dense_floor_div. unfold same_div in D.
    destruct (dense_div_mod O fuel (pre ++ p) b) as [[q r]| |], (dense_div_mod O fuel (pre' ++ p) b') as [[q' r']| |]; cbn in *; try contradiction; try congruence.
    destruct D as [-> _]. reflexivity.
  - rewrite (rem_assign_front O fuel pre p b b' Za Eb), (rem_assign_front O fuel pre' p b' b' Za' eq_refl).
    destruct (dense_rem_assign O fuel p b') as [r| |]; cbn; try reflexivity. apply Q2.
Qed.

(** Sums, differences, negation and scalar products. *)
Theorem C92_dense_sums : forall T (O : num T) R den fits, lawful O R den -> fits_ops O R den fits -> forall a a' b b' c,
  dense_eq O a a' = Ok true -> dense_eq O b b' = Ok true ->
  same_outcome O (dense_add O a b) (dense_add O a' b') /\ same_outcome O (dense_add_assign O a b) (dense_add_assign O a' b') /\
  same_outcome O (dense_sub O a b) (dense_sub O a' b') /\ same_outcome O (dense_sub_assign O a b) (dense_sub_assign O a' b') /\
  same_outcome O (dense_sub_assign_ref O a b) (dense_sub_assign_ref O a' b') /\
  same_outcome O (dense_neg O a) (dense_neg O a') /\
  same_outcome O (dense_scale O a c) (dense_scale O a' c) /\ same_outcome O (dense_scale_assign O a c) (dense_scale_assign O a' c).
Proof.
  intros T O R den fits L F a a' b b' c Ha Hb. apply (dense_eq_peq O R den L) in Ha, Hb.
  assert (K : forall (x y : res (list T)) p p', peq p p' ->
            ((exists r, x = Ok r) <-> forall d, fits (p d)) -> ((exists r, y = Ok r) <-> forall d, fits (p' d)) ->
            (forall r, x = Ok r -> peq (dcoef R den r) p) -> (forall r, y = Ok r -> peq (dcoef R den r) p') -> same_outcome O x y).
  { intros x y p p' E Rx Ry Cx Cy. split.
    - rewrite Rx, Ry. split; intros H d; specialize (H d); specialize (E d); congruence.
    - intros r s Hr Hs. apply (peq_dense_eq O R den L). eapply peq_trans; [apply Cx, Hr|]. eapply peq_trans; [exact E|]. apply peq_sym, Cy, Hs. }
  assert (Ep : peq (padd (dcoef R den a) (dcoef R den b)) (padd (dcoef R den a') (dcoef R den b'))) by (intros d; unfold padd; rewrite Ha, Hb; reflexivity).
  assert (Em : peq (psub (dcoef R den a) (dcoef R den b)) (psub (dcoef R den a') (dcoef R den b'))) by (intros d; unfold psub; rewrite Ha, Hb; reflexivity).
  assert (En : peq (popp (dcoef R den a)) (popp (dcoef R den a'))) by (intros d; unfold popp; rewrite Ha; reflexivity).
  assert (Es : peq (pscale (dcoef R den a) (den c)) (pscale (dcoef R den a') (den c))) by (intros d; unfold pscale; rewrite Ha; reflexivity).
  pose proof (C06_dense_add_returns T O R den fits L F) as A1. pose proof (C06_dense_add T O R den L) as A2.
  pose proof (C07_dense_sub_returns T O R den fits L F) as S1. pose proof (C07_dense_sub T O R den L) as S2.
  pose proof (C07_dense_neg_returns T O R den fits L F) as N1. pose proof (C07_dense_neg T O R den L) as N2.
  pose proof (C11_dense_scale_returns T O R den fits L F) as M1. pose proof (C11_dense_scale T O R den L) as M2.
  split; [|split; [|split; [|split; [|split; [|split; [|split]]]]]].
  - apply (K _ _ _ _ Ep); try apply A1; intros r H; apply A2; auto.
  - apply (K _ _ _ _ Ep); try apply A1; intros r H; apply A2; auto.
  - apply (K _ _ _ _ Em); try apply S1; intros r H; apply S2; auto.
  - apply (K _ _ _ _ Em); try apply S1; intros r H; apply S2; auto.
  - apply (K _ _ _ _ Em); try apply S1; intros r H; apply S2; auto.
  - apply (K _ _ _ _ En); try apply N1; intros r H; apply N2; auto.
  - apply (K _ _ _ _ Es); try apply M1; intros r H; apply M2; auto.
  - apply (K _ _ _ _ Es); try apply M1; intros r H; apply M2; auto.
Qed.

(** Evaluation: the same value or the same panic, when products with zero return. *)
Theorem C92_dense_eval : forall T (O : num T) R den, lawful O R den -> zero_returns O -> forall a b, dense_eq O a b = Ok true ->
  forall x, dense_eval O a x = dense_eval O b x.
Proof.
  intros T O R den L Z a b H x. apply (dense_eq_peq O R den L) in H.
  assert (S : forall l, dense_eval O l x = dense_eval O (strip O l) x).
  { intros l. destruct (strip_split O l) as (pre & E & _ & A & _). rewrite E at 1. apply eval_zeros; [exact Z|].
    eapply Forall_impl; [|exact A]. intros c Hc. apply (lw_inj _ _ _ L). rewrite (lw_zero _ _ _ L). apply (lw_is_zero _ _ _ L), Hc. }
  rewrite (S a), (S b), (strip_unique O R den L a b H). reflexivity.
Qed.
Theorem C92_int_zero_returns : forall chk t, zero_returns (int_num chk t).
Proof.
  intros chk t. split; intros x.
  - change (arith chk t (ival (mk_int t 0) * ival x) = Ok (mk_int t 0)). rewrite ival_mk_int by (destruct t; reflexivity).
    rewrite Z.mul_0_l. apply arith_in_range. destruct t; reflexivity.
  - change (arith chk t (ival (mk_int t 0) + ival x) = Ok x). rewrite ival_mk_int by (destruct t; reflexivity).
    rewrite Z.add_0_l, arith_in_range by apply ival_ok. rewrite mk_int_ival. reflexivity.
Qed.

(** Sparse polynomials: the same, up to what a stored zero costs. *)
Theorem C92_sparse_values : forall T (O : num T) R den, lawful O R den -> forall a b, swf a -> swf b -> sparse_eq O a b = true ->
  sparse_degree O a = sparse_degree O b /\ sparse_terms O a = sparse_terms O b /\
  (forall x y z, Forall (fun kv => (fst kv < 2 ^ 32)%N) a -> Forall (fun kv => (fst kv < 2 ^ 32)%N) b ->
     sparse_eval O a x = Ok y -> sparse_eval O b x = Ok z -> y = z).
Proof.
  intros T O R den L a b Ha Hb H. pose proof (proj2 (C92_trim T O R den L) a b Ha Hb H) as Et.
  apply (C05_sparse_eq T O R den L a b Ha Hb) in H. split; [|split].
  - pose proof (proj1 (C02_sparse_degree T O R den L a Ha)) as Da. pose proof (proj1 (C02_sparse_degree T O R den L b Hb)) as Db.
    assert (E : dn (sparse_degree O a) = dn (sparse_degree O b)) by (apply (is_degree_unique (scoef R den a)); [exact Da|]; eapply is_degree_ext; [apply peq_sym, H|exact Db]).
    unfold dn in E. destruct (sparse_degree O a), (sparse_degree O b); try discriminate E; [reflexivity|]. injection E as E. f_equal. lia.
  - unfold sparse_terms. rewrite !filter_rev'. unfold sparse_trim in Et. rewrite Et. reflexivity.
  - intros x y z Ka Kb Hy Hz. apply (lw_inj _ _ _ L). apply (C12_sparse_eval T O R den L) in Hy, Hz; try assumption.
    refine (is_value_fun _ _ _ _ Hy _). eapply is_value_ext; [apply peq_sym, H|exact Hz].
Qed.

Definition same_map_outcome {T} (O : num T) (x y : res (bmap T)) : Prop :=
  ((exists r, x = Ok r) <-> (exists s, y = Ok s)) /\ forall r s, x = Ok r -> y = Ok s -> sparse_eq O r s = true.

Theorem C92_sparse_sums : forall T (O : num T) R den fits, lawful O R den -> fits_ops O R den fits -> forall a a' b b' c,
  swf a -> swf a' -> swf b -> swf b' -> sparse_eq O a a' = true -> sparse_eq O b b' = true ->
  same_map_outcome O (sparse_add O a b) (sparse_add O a' b') /\ same_map_outcome O (sparse_add_assign O a b) (sparse_add_assign O a' b') /\
  same_map_outcome O (sparse_sub O a b) (sparse_sub O a' b') /\ same_map_outcome O (sparse_neg O a) (sparse_neg O a') /\
  same_map_outcome O (sparse_scale O a c) (sparse_scale O a' c) /\ same_map_outcome O (sparse_scale_assign O a c) (sparse_scale_assign O a' c).
Proof.
  intros T O R den fits L F a a' b b' c Wa Wa' Wb Wb' Ha Hb.
  apply (C05_sparse_eq T O R den L a a' Wa Wa') in Ha. apply (C05_sparse_eq T O R den L b b' Wb Wb') in Hb.
  assert (K : forall (x y : res (bmap T)) p p', peq p p' ->
            ((exists r, x = Ok r) <-> forall d, fits (p d)) -> ((exists r, y = Ok r) <-> forall d, fits (p' d)) ->
            (forall r, x = Ok r -> swf r /\ peq (scoef R den r) p) -> (forall r, y = Ok r -> swf r /\ peq (scoef R den r) p') -> same_map_outcome O x y).
  { intros x y p p' E Rx Ry Cx Cy. split.
    - rewrite Rx, Ry. split; intros H d; specialize (H d); specialize (E d); congruence.
    - intros r s Hr Hs. destruct (Cx r Hr) as [Wr Er]. destruct (Cy s Hs) as [Ws Es]. apply (C05_sparse_eq T O R den L r s Wr Ws).
      eapply peq_trans; [exact Er|]. eapply peq_trans; [exact E|]. apply peq_sym, Es. }
  assert (Ep : peq (padd (scoef R den a) (scoef R den b)) (padd (scoef R den a') (scoef R den b'))) by (intros d; unfold padd; rewrite Ha, Hb; reflexivity).
  assert (Em : peq (psub (scoef R den a) (scoef R den b)) (psub (scoef R den a') (scoef R den b'))) by (intros d; unfold psub; rewrite Ha, Hb; reflexivity).
  assert (En : peq (popp (scoef R den a)) (popp (scoef R den a'))) by (intros d; unfold popp; rewrite Ha; reflexivity).
  assert (Es : peq (pscale (scoef R den a) (den c)) (pscale (scoef R den a') (den c))) by (intros d; unfold pscale; rewrite Ha; reflexivity).
  destruct (C23_sparse_returns T O R den fits L F a b Wa Wb) as (A1 & A2 & A3 & A4).
  destruct (C23_sparse_returns T O R den fits L F a' b' Wa' Wb') as (B1 & B2 & B3 & B4).
  destruct (C11_sparse_scale_returns T O R den fits L F a c Wa) as [A5 A6]. destruct (C11_sparse_scale_returns T O R den fits L F a' c Wa') as [B5 B6].
  split; [|split; [|split; [|split; [|split]]]].
  - apply (K _ _ _ _ Ep A1 B1); intros r H; eapply C23_sparse_add; eauto.
  - apply (K _ _ _ _ Ep A2 B2); intros r H; eapply C23_sparse_add; eauto.
  - apply (K _ _ _ _ Em A3 B3); intros r H; eapply C23_sparse_sub; eauto.
  - apply (K _ _ _ _ En A4 B4); intros r H; eapply C23_sparse_neg; eauto.
  - apply (K _ _ _ _ Es A5 B5); intros r H; eapply C11_sparse_scale; eauto.
  - apply (K _ _ _ _ Es A6 B6); intros r H; eapply C11_sparse_scale; eauto.
Qed.

(** With wrapping integers a stored zero costs nothing. *)
Theorem C92_sparse_eval_wrapping : forall t (a b : bmap (int t)) x, let O := int_num false t in swf a -> swf b -> sparse_eq O a b = true ->
  Forall (fun kv => (fst kv < 2 ^ 32)%N) a -> Forall (fun kv => (fst kv < 2 ^ 32)%N) b -> sparse_eval O a x = sparse_eval O b x.
Proof.
  intros t a b x O Ha Hb H Ka Kb.
  assert (S : forall m, exists r, sparse_eval O m x = Ok r) by (intros m; apply (sparse_eval_total O (wrapping_total t)); intros; apply ipow_wrapping_total).
  destruct (S a) as (y & Hy). destruct (S b) as (z & Hz). rewrite Hy, Hz. f_equal.
  apply (proj2 (proj2 (C92_sparse_values _ O _ _ (wrapping_lawful t) a b Ha Hb H)) x y z Ka Kb Hy Hz).
Qed.

(** The full statement is false for sparse polynomials: the difference (x^2 + 1) - x^2 keeps an
    entry 0 x^2, is equal to 1, and cannot be evaluated at the largest value of any integer
    type with overflow checks. *)
Theorem C92_sparse_eval_refuted : forall t, let O := int_num true t in exists r, let c := smap t [(0%N, 1%Z)] in let x := mk_int t (imax t) in
  sparse_sub O (smap t [(0%N, 1%Z); (2%N, 1%Z)]) (smap t [(2%N, 1%Z)]) = Ok r /\ sparse_eq O r c = true /\
  sparse_eval O r x = Panic POverflow /\ sparse_eval O c x = Ok (mk_int t 1).
Proof. intros t O. destruct t; eexists; cbv zeta; (split; [reflexivity|]); (split; [vm_compute; reflexivity|]); split; vm_compute; f_equal; apply int_eq; reflexivity. Qed.

(** x^M - x^M for the largest exponent M is equal to 0; multiplying it by x from the right
    panics, from the left returns, and 0 * x returns. *)
Theorem C92_sparse_mul_refuted : forall t, let O := int_num true t in exists r, let p := smap t [(USIZE_MAX, 1%Z)] in let x := smap t [(1%N, 1%Z)] in
  sparse_sub O p p = Ok r /\ sparse_eq O r [] = true /\ sparse_mul O r x = Panic POverflow /\ sparse_mul O x r = Ok [] /\ sparse_mul O [] x = Ok [].
Proof. intros t O. destruct t; eexists; cbv zeta; (split; [reflexivity|]); repeat split; vm_compute; reflexivity. Qed.

(** x^200 - x^200 over i8 is equal to 0 and has no integral. *)
Theorem C92_sparse_integral_refuted : forall chk, let O := int_num chk I8 in exists r, let p := smap I8 [(200%N, 1%Z)] in
  sparse_sub O p p = Ok r /\ sparse_eq O r [] = true /\ (exists k, sparse_integral O r = Panic k) /\ sparse_integral O [] = Ok [].
Proof. intros chk O. destruct chk; eexists; cbv zeta; (split; [reflexivity|]); (split; [vm_compute; reflexivity|]); (split; [eexists; vm_compute; reflexivity|]); reflexivity. Qed.

(** Two different vectors for 3 x - 2, two different maps for 3 x^5. *)
Example C92_case : let O := int_num true I8 in let a := map (mk_int I8) [0; 0; 3; -2]%Z in let b := map (mk_int I8) [3; -2]%Z in
  let m := smap I8 [(2%N, 0%Z); (5%N, 3%Z)] in let n := smap I8 [(5%N, 3%Z); (9%N, 0%Z)] in
  a <> b /\ dense_eq O a b = Ok true /\ m <> n /\ swf m /\ swf n /\ sparse_eq O m n = true /\
  trimmed O b /\ no_zero_entry O (sparse_trim O m) /\ mono_eq O (MkMono (mk_int I8 0) 3) (MkMono (mk_int I8 0) 8) = true.
Proof.
  split; [discriminate|]. split; [vm_compute; reflexivity|]. split; [discriminate|]. split; [split; repeat constructor; vm_compute; congruence|].
  split; [split; repeat constructor; vm_compute; congruence|]. split; [vm_compute; reflexivity|]. split; [vm_compute; reflexivity|].
  split; [repeat constructor|reflexivity].
Qed.

Print Assumptions C92_trim.
Print Assumptions C92_canonical.
Print Assumptions C92_dense.
Print Assumptions C92_dense_division.
Print Assumptions C92_dense_sums.
Print Assumptions C92_dense_eval.
Print Assumptions C92_int_zero_returns.
Print Assumptions C92_sparse_values.
Print Assumptions C92_sparse_sums.
Print Assumptions C92_sparse_eval_wrapping.
Print Assumptions C92_sparse_eval_refuted.
Print Assumptions C92_sparse_mul_refuted.
Print Assumptions C92_sparse_integral_refuted.
