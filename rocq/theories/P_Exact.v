(** Property C59: floats that hold integers compute exactly within 2^24 (f32) and 2^53 (f64). *)

From Coq Require Import List NArith ZArith Lia Bool Arith Reals Sorted.
From Coq Require Import ZifyBool ZifyNat ZifyN.
From Flocq Require Import Core BinarySingleNaN.
From Verif Require Import Base Num Spec SpecFacts Laws Terms Dense DenseFacts DenseArith DenseMul DenseMulInt DenseCalc.
From Verif Require Import Sparse SparseFacts SparseArith SparseCalc Mono Bino Trino ArrPoly FixedFacts.
From Verif Require Import Floats FloatFacts Sim SimSparse SimFixed SimInst BoundedZ BoundedPow ExactZ.
From Verif Require Import P_Dense1 P_Dense2 P_Sparse1 P_Sparse2 P_Bounded.
Import ListNotations.
Local Open Scope Z_scope.

(** ** Specification *)

(** [y] is a finite float whose value is the integer [z]. *)
Definition holds {f} (y : flt f) (z : Z) : Prop := is_finite y = true /\ B2R y = IZR z.

(** The coefficient of x^d held by a vector (leading coefficient first) and by a map is [p d]. *)
Definition holds_vec {f} (l : list (flt f)) (p : poly Z_ring) : Prop := forall d, holds (nth d (rev l) (fzero f)) (p d).
Definition holds_map {f} (m : bmap (flt f)) (p : poly Z_ring) : Prop :=
  forall d, holds (match m_get (N.of_nat d) m with Some v => v | None => fzero f end) (p d).

(** All coefficients are in the range in which every integer is a float. *)
Definition exact_range (f : fty) (p : poly Z_ring) : Prop := forall d, Z.abs (p d) <= 2 ^ fprec f.

(** ** Lifting to exact integers *)
Section Lift.
Context (f : fty).
Notation r := (fden (zv f) f).
Notation dz := (dcoef Z_ring (zv f)).
Notation sz := (scoef Z_ring (zv f)).

Lemma holds_fun (y : flt f) a b : holds y a -> holds y b -> a = b.
Proof. intros [_ H1] [_ H2]. apply eq_IZR. congruence. Qed.

Lemma lift_vec (l : list (flt f)) p : holds_vec l p -> exact_range f p ->
  exists a, Forall2 r a l /\ peq (dz a) p.
Proof.
  intros H E.
  assert (Hf : Forall (fun y => exists z, holds y z /\ Z.abs z <= 2 ^ fprec f) l).
  { apply Forall_forall. intros y Hy. apply in_rev in Hy. apply (In_nth _ _ (fzero f)) in Hy. destruct Hy as (d & _ & <-). eauto. }
  assert (exists a, Forall2 r a l) as (a & Ha).
  { clear H. induction Hf as [|y l (z & H1 & H2) _ (a & IH)]; [exists []; constructor|].
    destruct (z_lift f y z H1 H2) as (c & _ & Hc). exists (c :: a). constructor; assumption. }
  exists a. split; [exact Ha|]. intros d. apply (holds_fun (nth d (rev l) (fzero f))); [|apply H].
  unfold dcoef, be_coef. rewrite <- map_rev.
  assert (Hr : Forall2 r (rev a) (rev l)).
  { clear - Ha. induction Ha; [constructor|]. cbn [rev]. apply Forall2_app; [assumption|]. constructor; [assumption|constructor]. }
  clear - Hr. revert d. induction Hr as [|x y la ll Hx _ IH]; intros [|d]; cbn [map nth]; try apply fint_zero; [exact Hx|apply IH].
Qed.

Lemma unlift_vec a (l : list (flt f)) : Forall2 r a l -> holds_vec l (dz a).
Proof.
  intros Ha d. unfold dcoef, be_coef. rewrite <- map_rev.
  assert (Hr : Forall2 r (rev a) (rev l)).
  { clear - Ha. induction Ha; [constructor|]. cbn [rev]. apply Forall2_app; [assumption|]. constructor; [assumption|constructor]. }
  clear - Hr. revert d. induction Hr as [|x y la ll Hx _ IH]; intros [|d]; cbn [map nth]; try apply fint_zero; [exact Hx|apply IH].
Qed.

Lemma holds_vec_ext (l : list (flt f)) p q : peq p q -> holds_vec l p -> holds_vec l q.
Proof. intros H K d. rewrite <- H. apply K. Qed.

Lemma lift_scalar (y : flt f) z : holds y z -> Z.abs z <= 2 ^ fprec f -> exists c, zv f c = z /\ r c y.
Proof. apply z_lift. Qed.

Lemma run_vec a (y : res (list (flt f))) x p : rres false (Forall2 r) x y -> x = Ok a -> peq (dz a) p ->
  exists v, y = Ok v /\ holds_vec v p.
Proof.
  intros H -> Hp. destruct H as [(b & -> & Hb)|[? _]]; [|discriminate]. exists b. split; [reflexivity|].
  eapply holds_vec_ext; [exact Hp|]. apply unlift_vec, Hb.
Qed.

Lemma len_r a (l : list (flt f)) : Forall2 r a l -> len a = len l.
Proof. intros H. unfold len. f_equal. induction H; cbn [length]; congruence. Qed.

End Lift.

Section Lift2.
Context (f : fty).
Notation r := (fden (zv f) f).
Lemma map_keys (a : bmap (zint f)) (m : bmap (flt f)) : Forall2 (entry_rel r) a m -> map fst a = map fst m.
Proof. induction 1 as [|[k v] [k' v'] a m [H1 H2] _ IH]; [reflexivity|]. cbn in *. congruence. Qed.

Lemma swf_keys {A B} (a : bmap A) (m : bmap B) : map fst a = map fst m -> swf m -> swf a.
Proof.
  intros E [H1 H2]. split.
  - revert a E. induction H1 as [|[k v] m H1 IH H3]; intros [|[k' v'] a] E; try discriminate; [constructor|].
    cbn in E. injection E as -> E. inversion H2; subst. constructor; [apply IH; assumption|].
    rewrite Forall_forall in H3 |- *. intros [k' w] Hi. apply (in_map fst) in Hi. rewrite E in Hi. apply in_map_iff in Hi.
    destruct Hi as ([k2 w2] & E2 & Hi). apply H3 in Hi. unfold key_lt in *. cbn in *. congruence.
  - clear H1. revert a E. induction H2 as [|[k v] m H1 _ IH]; intros [|[k' v'] a] E; try discriminate; [constructor|].
    cbn in E. injection E as -> E. constructor; [exact H1|apply IH, E].
Qed.

Lemma get_rel (a : bmap (zint f)) (m : bmap (flt f)) k : Forall2 (entry_rel r) a m ->
  match m_get k a, m_get k m with Some x, Some y => r x y | None, None => True | _, _ => False end.
Proof.
  induction 1 as [|[k1 v] [k2 v'] a m [H1 H2] _ IH]; [exact I|]. cbn in *. subst k2. destruct (k =? k1)%N; [exact H2|exact IH].
Qed.

Lemma unlift_map (a : bmap (zint f)) (m : bmap (flt f)) : swf a -> Forall2 (entry_rel r) a m -> holds_map m (scoef Z_ring (zv f) a).
Proof.
  intros Hw H d. rewrite scoef_get by apply Hw. pose proof (get_rel a m (N.of_nat d) H) as K.
  destruct (m_get (N.of_nat d) a), (m_get (N.of_nat d) m); try contradiction; [exact K|apply fint_zero].
Qed.

Lemma lift_map (m : bmap (flt f)) p : swf m -> holds_map m p -> exact_range f p ->
  exists a, Forall2 (entry_rel r) a m /\ swf a /\ peq (scoef Z_ring (zv f) a) p.
Proof.
  intros Hw H E.
  assert (Hf : Forall (fun kv => exists z, holds (snd kv) z /\ Z.abs z <= 2 ^ fprec f) m).
  { apply Forall_forall. intros [k y] Hi. exists (p (N.to_nat k)). split; [|apply E]. specialize (H (N.to_nat k)).
    rewrite N2Nat.id, (sorted_in_get m k y (proj1 Hw) Hi) in H. exact H. }
  assert (exists a, Forall2 (entry_rel r) a m) as (a & Ha).
  { clear H Hw. induction Hf as [|[k y] m (z & H1 & H2) _ (a & IH)]; [exists []; constructor|].
    destruct (z_lift f y z H1 H2) as (c & _ & Hc). exists ((k, c) :: a). constructor; [split; [reflexivity|exact Hc]|exact IH]. }
  assert (Wa : swf a) by (eapply swf_keys; [apply map_keys, Ha|exact Hw]).
  exists a. split; [exact Ha|]. split; [exact Wa|]. intros d.
  refine (holds_fun f _ _ _ (unlift_map a m Wa Ha d) (H d)).
Qed.

Lemma run_map a (y : res (bmap (flt f))) x p : rres false (Forall2 (entry_rel r)) x y -> x = Ok a -> swf a ->
  peq (scoef Z_ring (zv f) a) p -> exists v, y = Ok v /\ swf v /\ holds_map v p.
Proof.
  intros H -> Hw Hp. destruct H as [(b & -> & Hb)|[? _]]; [|discriminate]. exists b. split; [reflexivity|].
  split; [eapply swf_keys; [symmetry; apply map_keys, Hb|exact Hw]|]. intros d. rewrite <- Hp. apply (unlift_map a b Hw Hb d).
Qed.
End Lift2.

(** ** Theorems *)

(** [Polynomial]: reading, comparing, adding, subtracting, negating, scaling. *)
Theorem C59_dense_linear : forall chk f powi (a b : list (flt f)) p q y c, let O := float_num chk f powi in
  holds_vec a p -> exact_range f p -> holds_vec b q -> exact_range f q -> holds y c -> Z.abs c <= 2 ^ fprec f ->
  (exists r, dense_new O a = Ok r /\ holds_vec r p) /\
  is_degree p (match dense_degree O a with NegInf => None | Num n => Some (N.to_nat n) end) /\
  (exists r, dense_eq O a b = Ok r /\ (r = true <-> peq p q)) /\
  (exact_range f (padd p q) -> exists r, dense_add O a b = Ok r /\ holds_vec r (padd p q)) /\
  (exact_range f (psub p q) -> exists r, dense_sub_assign O a b = Ok r /\ holds_vec r (psub p q)) /\
  (exists r, dense_neg O a = Ok r /\ holds_vec r (popp p)) /\
  (exact_range f (pscale p c) -> exists r, dense_scale O a y = Ok r /\ holds_vec r (pscale p c)).
Proof.
  intros chk f powi a b p q y c O Ha Ea Hb Eb Hy Ey. subst O.
  destruct (lift_vec f a p Ha Ea) as (za & Ra & Pa). destruct (lift_vec f b q Hb Eb) as (zb & Rb & Pb).
  destruct (lift_scalar f y c Hy Ey) as (zc & <- & Rc).
  pose proof (z_sim f chk powi) as S. pose proof (z_lawful f chk powi) as L. pose proof (z_fits f chk powi) as F.
  split; [|split; [|split; [|split; [|split; [|split]]]]].
  - eapply run_vec; [eapply sim_dense_new; eassumption|apply dense_new_ok|].
    eapply peq_trans; [apply (strip_coef _ _ _ L)|exact Pa].
  - rewrite <- (sim_degree _ _ _ _ S za a Ra).
    pose proof (dense_degree_spec _ _ _ L za) as K. revert K. destruct (dense_degree _ za); cbn.
    + intros K d. rewrite <- Pa. apply K.
    + intros [K1 K2]. split; [rewrite <- Pa; exact K1|]. intros d Hd. rewrite <- Pa. apply K2, Hd.
  - destruct (C05_dense_eq _ _ _ _ L za zb) as (e & He & Hs). exists e.
    pose proof (sim_dense_eq _ _ _ _ S za a zb b Ra Rb) as K. rewrite He in K. destruct K as [(e' & K & <-)|[? _]]; [|discriminate].
    split; [exact K|]. rewrite Hs. split; intros H d; [rewrite <- Pa, <- Pb|rewrite Pa, Pb]; apply H.
  - intros He. destruct (proj2 (proj1 (C06_dense_add_returns _ _ _ _ _ L F za zb))) as (r & Hr).
    { intros d. unfold padd. rewrite Pa, Pb. apply He. }
    eapply run_vec; [eapply sim_dense_add; eassumption|exact Hr|].
    eapply peq_trans; [apply (C06_dense_add _ _ _ _ L _ _ _ (or_introl Hr))|]. intros d. unfold padd. rewrite Pa, Pb. reflexivity.
  - intros He. destruct (proj2 (proj1 (C07_dense_sub_returns _ _ _ _ _ L F za zb))) as (r & Hr).
    { intros d. unfold psub. rewrite Pa, Pb. apply He. }
    eapply run_vec; [eapply sim_dense_sub_assign; eassumption|exact Hr|].
    eapply peq_trans; [apply (dense_sub_assign_coef _ _ _ L _ _ _ Hr)|]. intros d. unfold psub. rewrite Pa, Pb. reflexivity.
  - destruct (proj2 (C07_dense_neg_returns _ _ _ _ _ L F za)) as (r & Hr).
    { intros d. unfold popp. rewrite Pa. specialize (Ea d). unfold zM. cbn [ropp Z_ring]. cbn [car Z_ring] in *. lia. }
    eapply run_vec; [eapply sim_dense_neg; eassumption|exact Hr|].
    eapply peq_trans; [apply (dense_neg_coef _ _ _ L _ _ Hr)|]. intros d. unfold popp. rewrite Pa. reflexivity.
  - intros He. destruct (proj2 (proj1 (C11_dense_scale_returns _ _ _ _ _ L F za zc))) as (r & Hr).
    { intros d. unfold pscale. rewrite Pa. apply He. }
    eapply run_vec; [eapply sim_dense_scale; eassumption|exact Hr|].
    eapply peq_trans; [apply (C11_dense_scale _ _ _ _ L _ _ _ (or_introl Hr))|]. intros d. unfold pscale. rewrite Pa. reflexivity.
Qed.

Lemma pmul_mag_ext (p p' q q' : poly Z_ring) d : peq p p' -> peq q q' ->
  pmul (pabs p) (pabs q) d = pmul (magnitudes p') (magnitudes q') d.
Proof. intros H1 H2. apply (@pmul_ext Z_ring); intros i; unfold pabs, magnitudes; rewrite ?(H1 i), ?(H2 i); reflexivity. Qed.

Lemma is_degree_ext {R : comring} (p q : poly R) g : peq p q -> is_degree p g -> is_degree q g.
Proof.
  intros H. destruct g as [n|]; cbn.
  - intros [K1 K2]. split; [rewrite <- H; exact K1|]. intros d Hd. rewrite <- H. apply K2, Hd.
  - intros K d. rewrite <- H. apply K.
Qed.

Lemma product_fits_ext {T} (O : num T) R (p p' q q' : poly R) : peq p p' -> peq q q' ->
  product_fits O R p q -> product_fits O R p' q'.
Proof.
  intros H1 H2 H m n Hm Hn. apply H; eapply is_degree_ext; [apply peq_sym, H1|exact Hm|apply peq_sym, H2|exact Hn].
Qed.

(** Multiplication, powers, evaluation and the derivative, when the sums of the magnitudes are in
    the exact range. *)
Theorem C59_dense_mul : forall chk f powi (a b : list (flt f)) p q, let O := float_num chk f powi in
  vec_ok O a -> vec_ok O b -> holds_vec a p -> exact_range f p -> holds_vec b q -> exact_range f q ->
  product_fits O Z_ring p q -> ~ (peq p pzero /\ peq q pzero) ->
  (forall d, pmul (magnitudes p) (magnitudes q) d <= 2 ^ fprec f) ->
  exists r, dense_mul O a b = Ok r /\ holds_vec r (pmul p q).
Proof.
  intros chk f powi a b p q O Va Vb Ha Ea Hb Eb Hf Hn Hm. subst O.
  destruct (lift_vec f a p Ha Ea) as (za & Ra & Pa). destruct (lift_vec f b q Hb Eb) as (zb & Rb & Pb).
  pose proof (z_sim f chk powi) as S. pose proof (z_lawful f chk powi) as L. pose proof (z_fits f chk powi) as F.
  assert (Vza : vec_ok (znum f chk powi) za) by (unfold vec_ok; rewrite (len_r f za a Ra); exact Va).
  assert (Vzb : vec_ok (znum f chk powi) zb) by (unfold vec_ok; rewrite (len_r f zb b Rb); exact Vb).
  destruct (dense_mul_fit _ _ L _ F (zM f) True (z_fit f) (z_sgn f) za zb Vza Vzb) as (r & Hr).
  - apply (product_fits_strip _ _ _ L); [assumption|assumption|].
    eapply (product_fits_ext (znum f chk powi)); [apply peq_sym, Pa|apply peq_sym, Pb|exact Hf].
  - eapply nonzero_strip; [exact L|]. intros [K1 K2]. apply Hn. split; intros d; [rewrite <- Pa|rewrite <- Pb]; auto.
  - intros d. rewrite (pmul_mag_ext _ p _ q d Pa Pb). apply Hm.
  - eapply run_vec; [eapply sim_dense_mul; eassumption|exact Hr|].
    eapply peq_trans; [apply (dense_mul_coef _ _ _ L _ _ _ Vza Vzb Hr)|]. apply pmul_ext; assumption.
Qed.

Theorem C59_dense_pow : forall chk f powi (a : list (flt f)) p e n s fuel, let O := float_num chk f powi in
  vec_ok O a -> holds_vec a p -> exact_range f p -> is_degree p (Some n) -> (N.of_nat n * e + 1 <= n_max_len O)%N ->
  @is_value Z_ring (magnitudes p) 1 s -> s ^ Z.of_N e <= 2 ^ fprec f -> (1 + 2 * N.to_nat (N.size e) <= fuel)%nat ->
  exists r, dense_pow O fuel a e = Ok r /\ holds_vec r (ppow p (N.to_nat e)).
Proof.
  intros chk f powi a p e n s fuel O Va Ha Ea Hd Hc Hs HB Hf. subst O.
  destruct (lift_vec f a p Ha Ea) as (za & Ra & Pa).
  pose proof (z_sim f chk powi) as S. pose proof (z_lawful f chk powi) as L. pose proof (z_fits f chk powi) as F.
  assert (Vza : vec_ok (znum f chk powi) za) by (unfold vec_ok; rewrite (len_r f za a Ra); exact Va).
  pose proof (dense_degree_spec _ _ _ L za) as Da.
  pose proof (is_degree_unique _ _ _ Hd (is_degree_ext _ _ _ Pa Da)) as E.
  rewrite dense_degree_strip in E. destruct (strip (znum f chk powi) za) as [|x w] eqn:Es; [discriminate|]. injection E as E.
  destruct (dense_pow_fit _ _ L _ F (zM f) True (z_fit f) (z_sgn f) fuel za e s) as (r & Hr & _); auto.
  - rewrite Es. discriminate.
  - rewrite Es. unfold len in *. simpl length. rewrite Nnat.Nat2N.id in E. subst n.
    replace (N.of_nat (Datatypes.S (length w)) - 1)%N with (N.of_nat (length w)) by lia. exact Hc.
  - eapply abs_sum_ext; [apply peq_sym, Pa|exact Hs].
  - eapply run_vec; [eapply sim_dense_pow; eassumption|exact Hr|].
    eapply peq_trans; [eapply (C10_dense_pow _ _ _ _ L); [|exact Vza|exact Hr]; destruct f; vm_compute; discriminate|].
    clear - Pa. induction (N.to_nat e) as [|k IH]; [apply peq_refl|]. cbn [ppow]. apply pmul_ext; assumption.
Qed.

Lemma is_value_mag f (a : list (zint f)) p x v : peq (dcoef Z_ring (zv f) a) p ->
  @is_value Z_ring (magnitudes p) x v -> @is_value Z_ring (pabs (dcoef Z_ring (zv f) a)) x v.
Proof. intros H. apply is_value_ext. intros d. unfold pabs, magnitudes. rewrite (H d). reflexivity. Qed.

Lemma run_num f a (y : res (flt f)) x z : rres false (fden (zv f) f) x y -> x = Ok a -> zv f a = z -> exists v, y = Ok v /\ holds v z.
Proof. intros H -> <-. destruct H as [(b & -> & Hb)|[? _]]; [|discriminate]. exists b. split; [reflexivity|exact Hb]. Qed.

Theorem C59_eval : forall chk f powi (y : flt f) x v w, let O := float_num chk f powi in
  holds y x -> Z.abs x <= 2 ^ fprec f -> v <= 2 ^ fprec f ->
  (forall l p, holds_vec l p -> exact_range f p -> @is_value Z_ring (magnitudes p) (Z.abs x) v -> @is_value Z_ring p x w ->
     (exists r, dense_eval O l y = Ok r /\ holds r w) /\ (exists r, arr_eval O l y = Ok r /\ holds r w)) /\
  (forall b p, holds_vec (bino_list b) p -> exact_range f p -> @is_value Z_ring (magnitudes p) (Z.abs x) v -> @is_value Z_ring p x w ->
     exists r, bino_eval O b y = Ok r /\ holds r w) /\
  (forall b p, holds_vec (trino_list b) p -> exact_range f p -> @is_value Z_ring (magnitudes p) (Z.abs x) v -> @is_value Z_ring p x w ->
     exists r, trino_eval O b y = Ok r /\ holds r w).
Proof.
  intros chk f powi y x v w O Hy Ey Hv. subst O. destruct (lift_scalar f y x Hy Ey) as (zc & <- & Rc).
  pose proof (z_sim f chk powi) as S. pose proof (z_lawful f chk powi) as L. pose proof (z_fits f chk powi) as F.
  split; [|split].
  - intros l p Hl El Hm Hw. destruct (lift_vec f l p Hl El) as (za & Ra & Pa).
    assert (K : exists r, dense_eval (float_num chk f powi) l y = Ok r /\ holds r w).
    { destruct (dense_eval_fit _ _ L _ F (zM f) True (z_fit f) (z_sgn f) za zc v (is_value_mag f za p _ _ Pa Hm) Hv) as (r & Hr).
      eapply run_num; [eapply sim_dense_eval; eassumption|exact Hr|].
      pose proof (dense_eval_value _ _ _ L _ _ _ Hr) as K. apply (@is_value_fun Z_ring p (zv f zc)); [|exact Hw].
      eapply is_value_ext; [exact Pa|exact K]. }
    split; exact K.
  - intros [b0 b1] p Hl El Hm Hw. destruct (lift_vec f _ p Hl El) as (za & Ra & Pa). cbn [bino_list bc0 bc1] in Ra.
    inversion Ra as [|z0 ? l1 ? R0 Ra1]; subst. inversion Ra1 as [|z1 ? l2 ? R1 Ra2]; subst. inversion Ra2; subst.
    assert (Rb : bino_rel (fden (zv f) f) (MkBino z0 z1) (MkBino b0 b1)) by (split; assumption).
    destruct (bino_eval_fit _ _ L _ F (zM f) True (z_fit f) (z_sgn f) (MkBino z0 z1) zc v (is_value_mag f _ p _ _ Pa Hm) Hv) as (r & Hr).
    eapply run_num; [eapply sim_bino_eval; eassumption|exact Hr|].
    pose proof (bino_eval_value _ _ _ L _ _ _ Hr) as K. apply (@is_value_fun Z_ring p (zv f zc)); [|exact Hw].
    eapply is_value_ext; [exact Pa|exact K].
  - intros [b0 b1 b2] p Hl El Hm Hw. destruct (lift_vec f _ p Hl El) as (za & Ra & Pa). cbn [trino_list tc0 tc1 tc2] in Ra.
    inversion Ra as [|z0 ? l1 ? R0 Ra1]; subst. inversion Ra1 as [|z1 ? l2 ? R1 Ra2]; subst. inversion Ra2 as [|z2 ? l3 ? R2 Ra3]; subst. inversion Ra3; subst.
    assert (Rb : trino_rel (fden (zv f) f) (MkTrino z0 z1 z2) (MkTrino b0 b1 b2)) by exact (conj R0 (conj R1 R2)).
    destruct (trino_eval_fit _ _ L _ F (zM f) True (z_fit f) (z_sgn f) (MkTrino z0 z1 z2) zc v (is_value_mag f _ p _ _ Pa Hm) Hv) as (r & Hr).
    eapply run_num; [eapply sim_trino_eval; eassumption|exact Hr|].
    pose proof (trino_eval_value _ _ _ L _ _ _ Hr) as K. apply (@is_value_fun Z_ring p (zv f zc)); [|exact Hw].
    eapply is_value_ext; [exact Pa|exact K].
Qed.

Theorem C59_dense_derivative : forall chk f powi (a : list (flt f)) p g, let O := float_num chk f powi in
  vec_ok O a -> holds_vec a p -> exact_range f p -> is_degree p g ->
  match g with Some n => (N.of_nat n + 1 <= f_cont_limit f)%N | None => True end -> exact_range f (pderiv p) ->
  exists r, dense_derivative O a = Ok r /\ holds_vec r (pderiv p).
Proof.
  intros chk f powi a p g O Va Ha Ea Hg Hc He. subst O.
  destruct (lift_vec f a p Ha Ea) as (za & Ra & Pa).
  pose proof (z_sim f chk powi) as S. pose proof (z_lawful f chk powi) as L. pose proof (z_fits f chk powi) as F.
  assert (Vza : vec_ok (znum f chk powi) za) by (unfold vec_ok; rewrite (len_r f za a Ra); exact Va).
  assert (Pd : peq (pderiv (dcoef Z_ring (zv f) za)) (pderiv p)) by (intros d; unfold pderiv; rewrite Pa; reflexivity).
  destruct (dense_derivative_fit _ _ L _ F (zM f) True (z_fit f) (z_up f) za Vza) as (r & Hr).
  - pose proof (dense_degree_spec _ _ _ L za) as Da. pose proof (is_degree_unique _ _ _ Hg (is_degree_ext _ _ _ Pa Da)) as E.
    assert (K : (len (strip (znum f chk powi) za) <= f_cont_limit f)%N).
    { rewrite dense_degree_strip in E. clear - E Hc. destruct (strip (znum f chk powi) za) as [|x w]; [unfold len; simpl length; destruct f; vm_compute; discriminate|].
      subst g. unfold len in *. cbn -[N.add N.sub N.le N.of_nat N.to_nat f_cont_limit] in *. lia. }
    cbn [of_cont znum]. destruct (N.leb_spec (len (strip (znum f chk powi) za)) (f_cont_limit f)); [|lia].
    destruct (zopt_ex f (Z.of_N (len (strip (znum f chk powi) za)))) as (c & Hc').
    { assert (Z.of_N (f_cont_limit f) <= zM f) by (clear; destruct f; vm_compute; discriminate). lia. }
    rewrite Hc'. discriminate.
  - intros d. rewrite (Pd d). apply He.
  - eapply run_vec; [eapply sim_dense_derivative; [exact S| |exact Ra]|exact Hr|].
    + unfold vec_ok in Vza. pose proof (lw_cap _ _ _ L). unfold USIZE_MAX. lia.
    + eapply peq_trans; [apply (dense_derivative_coef _ _ _ L _ _ Vza Hr)|exact Pd].
Qed.

(** ** Sparse polynomials *)
Lemma keys_in {A B} (a : bmap A) (m : bmap B) k x : map fst a = map fst m -> In (k, x) a -> exists y, In (k, y) m.
Proof.
  intros E Hi. apply (in_map fst) in Hi. rewrite E in Hi. apply in_map_iff in Hi. destruct Hi as ([k2 y] & E2 & Hi).
  cbn in E2. subst k2. eauto.
Qed.

Theorem C59_sparse_linear : forall chk f powi (a b : bmap (flt f)) p q y c, let O := float_num chk f powi in
  swf a -> swf b -> holds_map a p -> exact_range f p -> holds_map b q -> exact_range f q -> holds y c -> Z.abs c <= 2 ^ fprec f ->
  is_degree p (match sparse_degree O a with NegInf => None | Num n => Some (N.to_nat n) end) /\
  (sparse_eq O a b = true <-> peq p q) /\
  (exact_range f (padd p q) -> exists r, sparse_add O a b = Ok r /\ swf r /\ holds_map r (padd p q)) /\
  (exact_range f (psub p q) -> exists r, sparse_sub O a b = Ok r /\ swf r /\ holds_map r (psub p q)) /\
  (exists r, sparse_neg O a = Ok r /\ swf r /\ holds_map r (popp p)) /\
  (exact_range f (pscale p c) -> exists r, sparse_scale O a y = Ok r /\ swf r /\ holds_map r (pscale p c)).
Proof.
  intros chk f powi a b p q y c O Wa Wb Ha Ea Hb Eb Hy Ey. subst O.
  destruct (lift_map f a p Wa Ha Ea) as (za & Ra & Wza & Pa). destruct (lift_map f b q Wb Hb Eb) as (zb & Rb & Wzb & Pb).
  destruct (lift_scalar f y c Hy Ey) as (zc & <- & Rc).
  pose proof (z_sim f chk powi) as S. pose proof (z_lawful f chk powi) as L. pose proof (z_fits f chk powi) as F.
  split; [|split; [|split; [|split; [|split]]]].
  - rewrite <- (sim_sparse_degree _ _ _ _ S za a Ra).
    pose proof (proj1 (C02_sparse_degree _ _ _ _ L za Wza)) as K. revert K. destruct (sparse_degree _ za); cbn.
    + intros K d. rewrite <- Pa. apply K.
    + intros [K1 K2]. split; [rewrite <- Pa; exact K1|]. intros d Hd. rewrite <- Pa. apply K2, Hd.
  - rewrite <- (sim_sparse_eq _ _ _ _ S za a zb b Ra Rb), (C05_sparse_eq _ _ _ _ L za zb Wza Wzb).
    split; intros H d; [rewrite <- Pa, <- Pb|rewrite Pa, Pb]; apply H.
  - intros He. destruct (proj2 (proj1 (C23_sparse_returns _ _ _ _ _ L F za zb Wza Wzb))) as (r & Hr).
    { intros d. unfold padd. rewrite Pa, Pb. apply He. }
    destruct (C23_sparse_add _ _ _ _ L za zb r Wza Wzb (or_introl Hr)) as [Wr Pr].
    eapply run_map; [eapply sim_sparse_add; eassumption|exact Hr|exact Wr|].
    eapply peq_trans; [exact Pr|]. intros d. unfold padd. rewrite Pa, Pb. reflexivity.
  - intros He. destruct (proj2 (proj1 (proj2 (proj2 (C23_sparse_returns _ _ _ _ _ L F za zb Wza Wzb))))) as (r & Hr).
    { intros d. unfold psub. rewrite Pa, Pb. apply He. }
    destruct (C23_sparse_sub _ _ _ _ L za zb r Wza Wzb Hr) as [Wr Pr].
    eapply run_map; [eapply sim_sparse_sub; eassumption|exact Hr|exact Wr|].
    eapply peq_trans; [exact Pr|]. intros d. unfold psub. rewrite Pa, Pb. reflexivity.
  - destruct (proj2 (proj2 (proj2 (proj2 (C23_sparse_returns _ _ _ _ _ L F za zb Wza Wzb))))) as (r & Hr).
    { intros d. unfold popp. rewrite Pa. specialize (Ea d). unfold zM. cbn [ropp Z_ring]. cbn [car Z_ring] in *. lia. }
    destruct (C23_sparse_neg _ _ _ _ L za r Wza Hr) as [Wr Pr].
    eapply run_map; [eapply sim_sparse_neg; eassumption|exact Hr|exact Wr|].
    eapply peq_trans; [exact Pr|]. intros d. unfold popp. rewrite Pa. reflexivity.
  - intros He. destruct (proj2 (proj1 (C11_sparse_scale_returns _ _ _ _ _ L F za zc Wza))) as (r & Hr).
    { intros d. unfold pscale. rewrite Pa. apply He. }
    destruct (C11_sparse_scale _ _ _ _ L za zc r Wza (or_introl Hr)) as [Wr Pr].
    eapply run_map; [eapply sim_sparse_scale; eassumption|exact Hr|exact Wr|].
    eapply peq_trans; [exact Pr|]. intros d. unfold pscale. rewrite Pa. reflexivity.
Qed.

Lemma keys_pbound f n (a : bmap (zint f)) : swf a -> Forall (fun kv => (fst kv <= n)%N) a -> pbound (scoef Z_ring (zv f) a) n.
Proof.
  intros Wa H i Hi. rewrite scoef_get by apply Wa. destruct (m_get (N.of_nat i) a) as [v|] eqn:E; [|reflexivity].
  apply m_get_in in E. rewrite Forall_forall in H. apply H in E. cbn in E. lia.
Qed.

Lemma keys_Forall {A B} (a : bmap A) (m : bmap B) n : map fst a = map fst m ->
  Forall (fun kv => (fst kv <= n)%N) m -> Forall (fun kv => (fst kv <= n)%N) a.
Proof.
  intros E H. rewrite Forall_forall in *. intros [k v] Hi. destruct (keys_in a m k v E Hi) as (y & Hy). apply (H _ Hy).
Qed.

Theorem C59_sparse_mul : forall chk f powi (a b : bmap (flt f)) p q na nb, let O := float_num chk f powi in
  swf a -> swf b -> holds_map a p -> exact_range f p -> holds_map b q -> exact_range f q ->
  Forall (fun kv => (fst kv <= na)%N) a -> Forall (fun kv => (fst kv <= nb)%N) b -> (na + nb <= USIZE_MAX)%N ->
  (forall d, pmul (magnitudes p) (magnitudes q) d <= 2 ^ fprec f) ->
  exists r, sparse_mul O a b = Ok r /\ swf r /\ holds_map r (pmul p q).
Proof.
  intros chk f powi a b p q na nb O Wa Wb Ha Ea Hb Eb Ka Kb Hk Hm. subst O.
  destruct (lift_map f a p Wa Ha Ea) as (za & Ra & Wza & Pa). destruct (lift_map f b q Wb Hb Eb) as (zb & Rb & Wzb & Pb).
  pose proof (z_sim f chk powi) as S. pose proof (z_lawful f chk powi) as L. pose proof (z_fits f chk powi) as F.
  pose proof (keys_Forall za a na (map_keys f za a Ra) Ka) as Kza. pose proof (keys_Forall zb b nb (map_keys f zb b Rb) Kb) as Kzb.
  destruct (sparse_mul_fit _ _ L _ F (zM f) True (z_fit f) (z_sgn f) za zb Wza Wzb) as (r & Hr).
  - intros k v Hi _ [k' v'] Hi'. cbn [fst]. rewrite Forall_forall in Kza, Kzb. apply Kza in Hi'. apply Kzb in Hi. cbn [fst] in *.
    clear - Hi Hi' Hk. lia.
  - intros d. rewrite (pmul_mag_ext _ p _ q d Pa Pb). apply Hm.
  - destruct (C24_sparse_mul _ _ _ _ L za zb r Wza Wzb) as [Wr Pr]; [|exact Hr|].
    + right. exists na, nb. split; [apply keys_pbound; assumption|]. split; [apply keys_pbound; assumption|exact Hk].
    + eapply run_map; [eapply sim_sparse_mul; eassumption|exact Hr|exact Wr|].
      eapply peq_trans; [exact Pr|]. apply pmul_ext; assumption.
Qed.

Theorem C59_sparse_pow : forall chk f powi (a : bmap (flt f)) p e n s fuel, let O := float_num chk f powi in
  swf a -> holds_map a p -> exact_range f p -> Forall (fun kv => (fst kv <= n)%N) a -> (n * e <= USIZE_MAX)%N ->
  @is_value Z_ring (magnitudes p) 1 s -> 1 <= s -> s ^ Z.of_N e <= 2 ^ fprec f -> (1 + 2 * N.to_nat (N.size e) <= fuel)%nat ->
  exists r, sparse_pow O fuel a e = Ok r /\ swf r /\ holds_map r (ppow p (N.to_nat e)).
Proof.
  intros chk f powi a p e n s fuel O Wa Ha Ea Ka Hk Hs Hs1 HB Hf. subst O.
  destruct (lift_map f a p Wa Ha Ea) as (za & Ra & Wza & Pa).
  pose proof (z_sim f chk powi) as S. pose proof (z_lawful f chk powi) as L. pose proof (z_fits f chk powi) as F.
  pose proof (keys_Forall za a n (map_keys f za a Ra) Ka) as Kza.
  destruct (sparse_pow_fit _ _ L _ F (zM f) True (z_fit f) (z_sgn f) n fuel za e s Hf Wza Kza Hk) as (r & Hr & _); auto.
  - eapply abs_sum_ext; [apply peq_sym, Pa|exact Hs].
  - destruct (C10_sparse_pow _ _ _ _ L fuel za e r Wza) as [Wr Pr]; [|exact Hr|].
    + right. exists n. split; [apply keys_pbound; assumption|exact Hk].
    + eapply run_map; [eapply sim_sparse_pow; eassumption|exact Hr|exact Wr|].
      eapply peq_trans; [exact Pr|].
      clear - Pa. induction (N.to_nat e) as [|k IH]; [apply peq_refl|]. cbn [ppow]. apply pmul_ext; assumption.
Qed.

Theorem C59_sparse_derivative : forall chk f powi (a : bmap (flt f)) p, let O := float_num chk f powi in
  swf a -> holds_map a p -> exact_range f p -> exact_range f (pderiv p) ->
  exists r, sparse_derivative O a = Ok r /\ swf r /\ holds_map r (pderiv p).
Proof.
  intros chk f powi a p O Wa Ha Ea He. subst O.
  destruct (lift_map f a p Wa Ha Ea) as (za & Ra & Wza & Pa).
  pose proof (z_sim f chk powi) as S. pose proof (z_lawful f chk powi) as L. pose proof (z_fits f chk powi) as F.
  destruct (proj2 (C13_sparse_derivative_returns _ _ _ _ _ L F za Wza)) as (r & Hr).
  - intros d Hd. rewrite Pa in Hd. specialize (He d). unfold pderiv in He. rewrite Z_of_nat_ring in He.
    cbn [rmul Z_ring car] in He, Hd.
    destruct (zopt_ex f (Z.of_N (N.of_nat (Datatypes.S d)))) as (c & Hc).
    { unfold zM. cbn [r0 Z_ring] in Hd. clear - He Hd. rewrite Z.abs_mul in He. nia. }
    exists c. split; [exact Hc|]. rewrite Pa, Z_of_nat_ring. exact He.
  - destruct (C13_sparse_derivative _ _ _ _ L za r Wza Hr) as [Wr Pr].
    eapply run_map; [eapply sim_sparse_derivative; [exact S| |exact Ra]|exact Hr|exact Wr|].
    + intros k v Hi. destruct Wza as [_ W]. rewrite Forall_forall in W. apply (W _ Hi).
    + eapply peq_trans; [exact Pr|]. intros d. unfold pderiv. rewrite Pa. reflexivity.
Qed.

(** ** Concrete cases *)

Lemma holds_ints f zs : Forall (fun z => Z.abs z <= 2 ^ fprec f) zs -> holds_vec (map (f_of_Z f) zs) (@be_coef Z_ring zs).
Proof.
  intros H d. unfold be_coef. rewrite <- map_rev.
  assert (K : Forall (fun z => Z.abs z <= 2 ^ fprec f) (rev zs)).
  { rewrite Forall_forall in *. intros z Hz. apply H, in_rev, Hz. }
  clear H. change (car Z_ring) with Z. revert d. induction K as [|z l Hz _ IH]; intros [|d]; cbn [map nth]; try apply (fint_zero f); [apply (fint_of_Z f), Hz|apply IH].
Qed.

(** Beyond the range it stops: 2^24 + 1 = 2^24 in f32 and 2^53 + 1 = 2^53 in f64. *)
Theorem C59_range_refuted : forall chk f powi, exists (a b r : list (flt f)) p q,
  holds_vec a p /\ exact_range f p /\ holds_vec b q /\ exact_range f q /\ (forall d, Z.abs (padd p q d) <= 2 ^ fprec f + 1) /\
  dense_add (float_num chk f powi) a b = Ok r /\ ~ holds_vec r (padd p q).
Proof.
  intros chk f powi. exists (map (f_of_Z f) [2 ^ fprec f]), (map (f_of_Z f) [1]), (map (f_of_Z f) [2 ^ fprec f]).
  exists (@be_coef Z_ring [2 ^ fprec f]), (@be_coef Z_ring [1]).
  assert (P : 1 <= 2 ^ fprec f) by (destruct f; vm_compute; discriminate).
  assert (R1 : Forall (fun z => Z.abs z <= 2 ^ fprec f) [2 ^ fprec f]) by (repeat constructor; lia).
  assert (R2 : Forall (fun z => Z.abs z <= 2 ^ fprec f) [1]) by (repeat constructor; lia).
  split; [apply holds_ints, R1|]. split; [intros [|[|d]]; cbn; lia|].
  split; [apply holds_ints, R2|]. split; [intros [|[|d]]; cbn; lia|].
  split; [intros [|[|d]]; cbn [padd radd Z_ring be_coef rev app nth]; unfold padd; cbn [radd Z_ring be_coef rev app nth]; cbn; lia|].
  assert (E : fadd (f_of_Z f (2 ^ fprec f)) (f_of_Z f 1) = f_of_Z f (2 ^ fprec f)).
  { apply B2SF_inj. destruct f; vm_compute; reflexivity. }
  assert (E0 : feqb (f_of_Z f (2 ^ fprec f)) (fzero f) = false) by (destruct f; vm_compute; reflexivity).
  split.
  - cbn -[f_of_Z dense_new Z.pow]. rewrite E. clear E. revert E0. generalize (f_of_Z f (2 ^ fprec f)) as x. intros x E0.
    unfold dense_new, dense_trim, first_nonzero_index. cbn -[feqb]. rewrite E0. reflexivity.
  - intros H. specialize (H 0%nat).
    pose proof (holds_fun f _ _ _ H (holds_ints f [2 ^ fprec f] R1 0%nat)) as K.
    unfold padd in K. cbn -[Z.pow] in K. lia.
Qed.

(** Hypotheses of the theorems above are met by (3x - 5)^2 at x = 7 and by its factors. *)
Example C59_case : forall powi, let O := float_num true F32 powi in
  let h := map (f_of_Z F32) [3; -5] in let p := @be_coef Z_ring [3; -5] in
  holds_vec h p /\ exact_range F32 p /\ vec_ok O h /\
  @is_value Z_ring (magnitudes p) 1 8 /\ 8 ^ Z.of_N 2 <= 2 ^ fprec F32 /\
  (forall d, pmul (magnitudes p) (magnitudes p) d <= 2 ^ fprec F32) /\
  rmap (map B2SF) (dense_mul O h h) = Ok (map (fun z => B2SF (f_of_Z F32 z)) [9; -30; 25]) /\
  rmap (map B2SF) (dense_pow O 5 h 2) = Ok (map (fun z => B2SF (f_of_Z F32 z)) [9; -30; 25]) /\
  rmap B2SF (dense_eval O h (f_of_Z F32 7)) = Ok (B2SF (f_of_Z F32 16)).
Proof.
  intros powi O h p. split; [apply holds_ints; repeat constructor; vm_compute; discriminate|].
  split; [intros [|[|[|d]]]; vm_compute; discriminate|]. split; [vm_compute; discriminate|].
  split. { exists 2%nat. split; [|vm_compute; reflexivity]. intros [|[|[|i]]] Hi; try lia; reflexivity. }
  split; [vm_compute; discriminate|]. split.
  - intros d. destruct (Nat.le_gt_cases 4 d) as [H|H].
    + rewrite (@pmul_support Z_ring _ _ 2 2); [vm_compute; discriminate| | |lia]; intros [|[|i]] Hi; try lia; destruct i; reflexivity.
    + destruct d as [|[|[|[|d]]]]; [vm_compute; discriminate..|lia].
  - repeat split; vm_compute; reflexivity.
Qed.

Example C59_sparse_case : forall powi, let O := float_num true F32 powi in
  let m := [(0%N, f_of_Z F32 4); (1000000%N, f_of_Z F32 (-7))] in
  rmap (map (fun kv => (fst kv, B2SF (snd kv)))) (sparse_mul O m m)
    = Ok [(0%N, B2SF (f_of_Z F32 16)); (1000000%N, B2SF (f_of_Z F32 (-56))); (2000000%N, B2SF (f_of_Z F32 49))] /\
  rmap (map (fun kv => (fst kv, B2SF (snd kv)))) (sparse_derivative O m) = Ok [(999999%N, B2SF (f_of_Z F32 (-7000000)))].
Proof. intros powi O m. split; vm_compute; reflexivity. Qed.

Print Assumptions C59_dense_linear.
Print Assumptions C59_dense_mul.
Print Assumptions C59_dense_pow.
Print Assumptions C59_eval.
Print Assumptions C59_dense_derivative.
Print Assumptions C59_sparse_linear.
Print Assumptions C59_sparse_mul.
Print Assumptions C59_sparse_pow.
Print Assumptions C59_sparse_derivative.
Print Assumptions C59_range_refuted.
