(** Properties C14 (definite integrals, constants of integration) and C53 of
    [Integral<N, Polynomial<N>>] and [Integral<N, SparsePolynomial<N>>]. *)

From Coq Require Import String Ascii List NArith ZArith Lia Bool Ring.
From Verif Require Import Base Num Spec SpecFacts Laws Terms Dense Sparse.
From Verif Require Import DenseFacts DenseCalc DenseMut DenseDiv SparseFacts SparseCalc P_Dense1 P_Dense2 P_Sparse1 P_Sparse2.
From Verif Require Import Strs Integr.
Import ListNotations.

(** ** C14 *)

(** [eval(a, b)] is the value at [b] minus the value at [a]. *)
Definition difference {R : comring} (p : poly R) (a b v : car R) : Prop :=
  exists va vb, is_value p a va /\ is_value p b vb /\ v = rsub vb va.

Lemma difference_fun {R : comring} (p : poly R) a b v w : difference p a b v -> difference p a b w -> v = w.
Proof.
  intros (va & vb & A & B & ->) (wa & wb & C & D & ->). f_equal; eapply is_value_fun; eassumption.
Qed.

Section RingFacts.
Context {R : comring}.
Add Ring Rring_pi : (r_theory R).
Lemma sub_chain (a b c : car R) : radd (rsub b a) (rsub c b) = rsub c a. Proof. ring. Qed.
Lemma sub_swap (a b : car R) : rsub a b = ropp (rsub b a). Proof. ring. Qed.
Lemma sub_self (a : car R) : rsub a a = r0. Proof. ring. Qed.
Lemma add_r0 (a : car R) : radd a r0 = a. Proof. ring. Qed.
Lemma add_0l (a : car R) : radd r0 a = a. Proof. ring. Qed.
Lemma sub_shift (a b c : car R) : rsub (radd b (rmul c r1)) (radd a (rmul c r1)) = rsub b a. Proof. ring. Qed.
End RingFacts.

Theorem C14_eval_difference : forall T (O : num T) R den, lawful O R den -> forall a b r,
  (forall l, dense_integral_eval O l a b = Ok r -> difference (dcoef R den l) (den a) (den b) (den r)) /\
  (forall m, Forall (fun kv => (fst kv < 2 ^ 32)%N) m -> sparse_integral_eval O m a b = Ok r ->
     difference (scoef R den m) (den a) (den b) (den r)).
Proof.
  intros T O R den L a b r. split.
  - intros l H. unfold dense_integral_eval in H. inv_ok. exists (den v0), (den v).
    split; [apply (C12_dense_eval T O R den L), E0|]. split; [apply (C12_dense_eval T O R den L), E|]. apply (lw_sub _ _ _ L _ _ _ H).
  - intros m Hm H. unfold sparse_integral_eval in H. inv_ok. exists (den v0), (den v).
    split; [apply (C12_sparse_eval T O R den L); assumption|]. split; [apply (C12_sparse_eval T O R den L); assumption|]. apply (lw_sub _ _ _ L _ _ _ H).
Qed.

Theorem C14_eval_returns : forall T (O : num T), total_ops O -> forall l a b, exists r, dense_integral_eval O l a b = Ok r.
Proof.
  intros T O H l a b. unfold dense_integral_eval. destruct (C12_dense_eval_returns T O H l b) as (v & ->). cbn [bind].
  destruct (C12_dense_eval_returns T O H l a) as (w & ->). cbn [bind]. apply (to_sub _ H).
Qed.

(** Areas of adjacent intervals add up, swapping the bounds negates, and an empty interval has
    area zero. *)
Theorem C14_eval_additive : forall T (O : num T) R den, lawful O R den -> forall l a b c x y z w,
  dense_integral_eval O l a b = Ok x -> dense_integral_eval O l b c = Ok y -> dense_integral_eval O l a c = Ok z ->
  dense_integral_eval O l b a = Ok w ->
  radd (den x) (den y) = den z /\ den w = ropp (den x) /\ (forall u, dense_integral_eval O l a a = Ok u -> den u = r0).
Proof.
  intros T O R den L l a b c x y z w Hx Hy Hz Hw.
  destruct (C14_eval_difference T O R den L a b x) as [D1 _]. destruct (D1 l Hx) as (va & vb & A & B & ->).
  destruct (C14_eval_difference T O R den L b c y) as [D2 _]. destruct (D2 l Hy) as (vb' & vc & C & D & ->).
  destruct (C14_eval_difference T O R den L a c z) as [D3 _]. destruct (D3 l Hz) as (va' & vc' & E & F & ->).
  destruct (C14_eval_difference T O R den L b a w) as [D4 _]. destruct (D4 l Hw) as (vb'' & va'' & G & H & ->).
  rewrite (is_value_fun _ _ _ _ B G), (is_value_fun _ _ _ _ C G), (is_value_fun _ _ _ _ A H), (is_value_fun _ _ _ _ E H), (is_value_fun _ _ _ _ D F).
  split; [apply sub_chain|]. split; [apply sub_swap|]. intros u Hu.
  destruct (C14_eval_difference T O R den L a a u) as [D5 _]. destruct (D5 l Hu) as (v1 & v2 & I1 & I2 & ->).
  rewrite (is_value_fun _ _ _ _ I1 I2). apply sub_self.
Qed.

(** [replace_c(c)] adds [c] to the constant coefficient and changes nothing else. *)
Theorem C14_replace_c : forall T (O : num T) R den, lawful O R den -> forall c,
  (forall l r, vec_ok O l -> dense_replace_c O l c = Ok r ->
     forall d, dcoef R den r d = if Nat.eqb d 0 then radd (dcoef R den l 0%nat) (den c) else dcoef R den l d) /\
  (forall m r, swf m -> sparse_replace_c O m c = Ok r ->
     forall d, scoef R den r d = if Nat.eqb d 0 then radd (scoef R den m 0%nat) (den c) else scoef R den m d).
Proof.
  intros T O R den L c.
  assert (G : forall p q : poly R, peq q (padd p (pmono (den c) 0)) -> forall d, q d = if Nat.eqb d 0 then radd (p 0%nat) (den c) else p d).
  { intros p q H d. rewrite (H d). unfold padd, pmono. destruct (Nat.eqb_spec d 0) as [->|]; [reflexivity|apply add_r0]. }
  split; intros p r Hp H; apply G.
  - apply (dense_add_term_spec O R den L) in H; [apply H|exact Hp|unfold USIZE_MAX; lia].
  - apply (sparse_add_term_spec O R den L) in H; [apply H|exact Hp|unfold USIZE_MAX; lia].
Qed.

(** It returns whenever the sum is representable (and the vector may hold one element). *)
Theorem C14_replace_c_returns : forall T (O : num T) R den fits, lawful O R den -> fits_ops O R den fits -> forall c,
  (forall l, vec_ok O l -> (exists r, dense_replace_c O l c = Ok r) <->
     ((1 <= n_max_len O)%N /\ fits (radd (dcoef R den l 0%nat) (den c)))) /\
  (forall m, swf m -> (exists r, sparse_replace_c O m c = Ok r) <-> fits (radd (scoef R den m 0%nat) (den c))).
Proof.
  intros T O R den fits L F c. split; intros p Hp.
  - apply (dense_add_term_returns O R den L fits F p c 0 Hp). unfold USIZE_MAX. lia.
  - apply (sparse_add_term_returns O R den L fits F p c 0 Hp).
Qed.

(** An integral has constant coefficient zero, so [replace_c(c)] of it takes the value [c] at
    zero and still has the original polynomial as its derivative; definite integrals do not
    depend on the constant. *)
Theorem C14_constant_of_integration : forall T (O : num T) R den, lawful O R den -> exact_div O R den -> char0 R ->
  forall l F c G, vec_ok O l -> vec_ok O F -> dense_integral O l = Ok F -> dense_replace_c O F c = Ok G ->
  is_value (dcoef R den G) r0 (den c) /\ peq (pderiv (dcoef R den G)) (dcoef R den l) /\
  forall a b x y, dense_integral_eval O F a b = Ok x -> dense_integral_eval O G a b = Ok y -> den y = den x.
Proof.
  intros T O R den L X C l F c G Hl HF HI HG.
  destruct (dense_integral_exact O R den L X C l F Hl HI) as [H0 HD].
  pose proof (proj1 (C14_replace_c T O R den L c) F G HF HG) as E.
  assert (EG : peq (dcoef R den G) (padd (dcoef R den F) (pmono (den c) 0))).
  { intros d. rewrite E. unfold padd, pmono. destruct (Nat.eqb_spec d 0) as [->|]; [reflexivity|symmetry; apply add_r0]. }
  split; [|split].
  - destruct (C12_dense_eval_at_zero T O R den L G (zero O) (lw_zero _ _ _ L)) as (v & Hv & Ev).
    apply (C12_dense_eval T O R den L) in Hv. rewrite (lw_zero _ _ _ L) in Hv. rewrite Ev, E, H0 in Hv. cbn [Nat.eqb] in Hv.
    rewrite add_0l in Hv. exact Hv.
  - intros d. rewrite <- (HD d). unfold pderiv. rewrite E. reflexivity.
  - intros a b x y Hx Hy. destruct (proj1 (C14_eval_difference T O R den L a b x) F Hx) as (va & vb & A & B & ->).
    destruct (proj1 (C14_eval_difference T O R den L a b y) G Hy) as (wa & wb & A' & B' & ->).
    pose proof (is_value_ext _ _ _ _ (peq_sym _ _ EG) (is_value_padd _ _ _ _ _ A (is_value_pmono (den c) 0 (den a)))) as A2.
    pose proof (is_value_ext _ _ _ _ (peq_sym _ _ EG) (is_value_padd _ _ _ _ _ B (is_value_pmono (den c) 0 (den b)))) as B2.
    rewrite (is_value_fun _ _ _ _ A' A2), (is_value_fun _ _ _ _ B' B2). cbn [rpow]. apply sub_shift.
Qed.

(** 6x^2+2x integrates to 2x^3+x^2; from 1 to 3 that is 63-3 = 60. *)
Example C14_eval_case :
  rmap (map ival) (dense_integral (int_num true I32) (map (mk_int I32) [6; 2; 0]%Z)) = Ok [2; 1; 0; 0]%Z /\
  rmap ival (dense_integral_eval (int_num true I32) (map (mk_int I32) [2; 1; 0; 0]%Z) (mk_int I32 1) (mk_int I32 3)) = Ok 60%Z /\
  rmap (map ival) (dense_replace_c (int_num true I32) (map (mk_int I32) [2; 1; 0; 0]%Z) (mk_int I32 9)) = Ok [2; 1; 0; 9]%Z.
Proof. split; [|split]; vm_compute; reflexivity. Qed.

(** ** C53 *)

Theorem C53_integral_display : forall T (O : num T) R den (X : txt T), lawful O R den ->
  (forall l, (peq (dcoef R den l) pzero -> dense_integral_show O X l = Ok (lit "C")) /\
             (~ peq (dcoef R den l) pzero ->
                dense_integral_show O X l = (s <- dense_show O X l ;; Ok (s ++ lit " + C")))) /\
  (forall m, swf m ->
             (peq (scoef R den m) pzero -> sparse_integral_show O X m = Ok (lit "C")) /\
             (~ peq (scoef R den m) pzero ->
                sparse_integral_show O X m = (s <- sparse_show O X m ;; Ok (s ++ lit " + C")))).
Proof.
  intros T O R den X L. split.
  - intros l. unfold dense_integral_show. pose proof (C02_dense_is_zero T O R den L l) as H.
    destruct (dense_is_zero O l); split; intros H1; try reflexivity; exfalso; [apply H1, H; reflexivity|]. apply H in H1. discriminate.
  - intros m Hm. unfold sparse_integral_show. pose proof (proj2 (C02_sparse_degree T O R den L m Hm)) as H.
    destruct (sparse_is_zero O m); split; intros H1; try reflexivity; exfalso; [apply H1, H; reflexivity|]. apply H in H1. discriminate.
Qed.

(** In particular a non-zero integral never prints as C alone. *)
Theorem C53_only_zero_prints_C : forall T (O : num T) R den (X : txt T), lawful O R den -> forall l,
  dense_integral_show O X l = Ok (lit "C") <-> peq (dcoef R den l) pzero.
Proof.
  intros T O R den X L l. split; [|apply (C53_integral_display T O R den X L)]. intros H.
  apply (C02_dense_is_zero T O R den L). unfold dense_integral_show in H. destruct (dense_is_zero O l); [reflexivity|].
  destruct (dense_show O X l) as [s| |]; cbn [bind] in H; try discriminate H. injection H as H. exfalso.
  apply (f_equal (@length N)) in H. rewrite app_length in H. cbn in H. lia.
Qed.

Example C53_case :
  dense_integral_show (int_num true I32) (int_txt I32) (map (mk_int I32) [2; -1; 0; 0]%Z) = Ok (lit "2x^3 - x^2 + C") /\
  dense_integral_show (int_num true I32) (int_txt I32) (map (mk_int I32) [0; 0]%Z) = Ok (lit "C").
Proof. split; vm_compute; reflexivity. Qed.
