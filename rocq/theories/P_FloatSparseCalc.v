(** C94: how far sparse float derivatives and definite integrals are from the slope and the area. *)

From Coquelicot Require Import Coquelicot.
From Flocq Require Import Core BinarySingleNaN.
From Coq Require Import List NArith ZArith Reals Lia Lra Bool Sorted ZifyBool ZifyNat ZifyN.
From Verif Require Import Base Num Spec SpecFacts Laws Terms Dense DenseFacts Sparse SparseFacts SparseArith Mono Integr RealNum Floats FloatFacts FloatErr FloatEval
  Coef FloatCoef FloatSparse P_Integral P_Analytic P_FloatErr P_FloatRep P_FloatPow P_FloatUndo P_FloatCalc P_FloatPowi.
Import List.
Import ListNotations.
Local Open Scope R_scope.

(** ** Specification *)

(** The sum of |x|^(k+1), or of |x|^(k-1), over the stored exponents k. *)
Definition powers_up {f} (m : bmap (flt f)) (x : R) : R := fold_right (fun kv s => Rabs x ^ N.to_nat (fst kv + 1) + s) 0 m.
Definition powers_down {f} (m : bmap (flt f)) (x : R) : R := fold_right (fun kv s => Rabs x ^ N.to_nat (fst kv - 1) + s) 0 m.

(** What underflow can add when [n] stored entries with exponents up to [d] and sum of absolute
    values [C] are evaluated; [S] is the sum of the powers. *)
Definition underflow (f : fty) (n d : nat) (S C : R) : R :=
  (1 + uro f) ^ (n + 1 + d) * eta f * (S + INR d * ((1 + uro f) * C + INR n * eta f)) + (1 + uro f) ^ n * INR n * eta f.

(** [y] approximates the area under the polynomial from s to t, relative to the areas under the
    polynomial with absolute coefficients; [D] bounds the exponents. *)
Definition near_sparse_area {f} (m : bmap (flt f)) (D : N) (s t y : flt f) : Prop :=
  forall (F Fa : R -> R) v As At C, is_finite y = true ->
    (forall x, @is_value R_ring (spoly m) x (F x)) -> area F (B2R s) (B2R t) v ->
    (forall x, @is_value R_ring (spoly_abs m) x (Fa x)) -> area Fa 0 (Rabs (B2R s)) As -> area Fa 0 (Rabs (B2R t)) At -> area Fa 0 1 C ->
    let n := length m in let d := N.to_nat (D + 1) in
    Rabs (B2R y - v) <= ((1 + uro f) ^ (n + 3 + d) - 1) * (As + At) +
      (1 + uro f) * (underflow f n d (powers_up m (B2R s)) C + underflow f n d (powers_up m (B2R t)) C).

(** [y] approximates the slope of the polynomial at x. *)
Definition near_sparse_slope {f} (m : bmap (flt f)) (D : N) (x y : flt f) : Prop :=
  forall (F Fa : R -> R) v A C, is_finite y = true ->
    (forall t, @is_value R_ring (spoly m) t (F t)) -> derivable_pt_lim F (B2R x) v ->
    (forall t, @is_value R_ring (spoly_abs m) t (Fa t)) -> derivable_pt_lim Fa (Rabs (B2R x)) A -> derivable_pt_lim Fa 1 C ->
    let n := length m in let d := N.to_nat (D - 1) in
    Rabs (B2R y - v) <= ((1 + uro f) ^ (n + 2 + d) - 1) * A + underflow f n d (powers_down m (B2R x)) C.

(** ** Lemmas *)
Local Notation sumR := (@sumn R_ring).

Lemma lsum_ext {A} (g h : A -> R) l : (forall a, In a l -> g a = h a) -> lsum g l = lsum h l.
Proof. induction l as [|a l IH]; intros H; [reflexivity|]. cbn. rewrite (H a) by (left; reflexivity). f_equal. apply IH. intros; apply H; right; assumption. Qed.
Lemma lsum_pos {A} (g : A -> R) l : (forall a, 0 <= g a) -> 0 <= lsum g l.
Proof. intros H. induction l as [|a l IH]; cbn; [lra|]. specialize (H a). unfold lsum in IH. lra. Qed.
Lemma lsum_map {A B} (h : A -> B) (g : B -> R) l : lsum g (map h l) = lsum (fun a => g (h a)) l.
Proof. induction l as [|a l IH]; [reflexivity|]. cbn. f_equal. exact IH. Qed.
Lemma lsum_const {A} (c : R) (l : list A) : lsum (fun _ => c) l = INR (length l) * c.
Proof. induction l as [|a l IH]; [cbn; ring|]. cbn [lsum fold_right length]. unfold lsum in IH. rewrite IH, S_INR. ring. Qed.

(** A polynomial that vanishes off some exponents is the sum over them. *)
Lemma keyed_value {A} (l : list (N * A)) : forall (P : nat -> R) x, NoDup (map fst l) ->
  (forall d, ~ In (N.of_nat d) (map fst l) -> P d = 0) ->
  @is_value R_ring P x (lsum (fun kv => P (N.to_nat (fst kv)) * x ^ N.to_nat (fst kv)) l).
Proof.
  induction l as [|[k v] l IH]; intros P x Hn H.
  - apply (@is_value_zero R_ring). intros d. apply H. intros [].
  - cbn [map fst] in Hn, H. apply NoDup_cons_iff in Hn. destruct Hn as [Hi Hn]. cbn [lsum fold_right fst].
    set (P' := fun d : nat => if Nat.eqb d (N.to_nat k) then 0 else P d).
    eapply (@is_value_ext R_ring (@padd R_ring (@pmono R_ring (P (N.to_nat k)) (N.to_nat k)) P')).
    { intros d. unfold padd, pmono, P'. destruct (Nat.eqb_spec d (N.to_nat k)) as [->|K]; cbn; ring. }
    apply (@is_value_padd R_ring); [apply (@is_value_pmono R_ring)|].
    assert (E : lsum (fun kv => P' (N.to_nat (fst kv)) * x ^ N.to_nat (fst kv)) l = lsum (fun kv => P (N.to_nat (fst kv)) * x ^ N.to_nat (fst kv)) l).
    { apply lsum_ext. intros [k' v'] Hk. cbn [fst]. unfold P'. destruct (Nat.eqb_spec (N.to_nat k') (N.to_nat k)) as [K|K]; [|reflexivity].
      exfalso. apply Hi. apply N2Nat.inj in K. subst k'. apply (in_map fst) in Hk. exact Hk. }
    unfold lsum in E at 2. rewrite <- E. apply IH; [exact Hn|]. intros d Hd. unfold P'. destruct (Nat.eqb_spec d (N.to_nat k)) as [K|K]; [reflexivity|].
    apply H. intros [Q|Q]; [lia|exact (Hd Q)].
Qed.

Section Near.
Context (chk : bool) (f : fty).
Notation O := (float_num chk f (f_upow rt_powi)).
Notation u := (uro f).
Notation B := (@B2R (fprec f) (femax f)).
Implicit Types m g : bmap (flt f).

Lemma fold_coefs x m : forall s, is_finite (fold_left (sstep f rt_powi x) m s) = true -> Forall (fun kv : N * flt f => is_finite (snd kv) = true) m.
Proof.
  induction m as [|kv m IH]; intros s H; [constructor|]. cbn [fold_left] in H. constructor; [|eapply IH, H].
  apply fold_finite in H. unfold sstep in H. apply fadd_operands in H. destruct H as [_ H]. apply fmul_operands in H. apply H.
Qed.

(** Evaluating entries that are roundings of [P]. *)
Lemma sparse_eval_near g (P : nat -> R) x y n D SP SA SC SX :
  sparse_eval O g x = Ok y -> is_finite y = true -> swf g -> Forall (fun kv => (fst kv <= D)%N) g -> (D < 2 ^ 31)%N -> (length g <= n)%nat ->
  (forall kv, In kv g -> is_finite (snd kv) = true -> Rabs (B (snd kv) - P (N.to_nat (fst kv))) <= u * Rabs (P (N.to_nat (fst kv))) + eta f) ->
  (forall d, ~ In (N.of_nat d) (map fst g) -> P d = 0) ->
  @is_value R_ring P (B x) SP -> @is_value R_ring (fun d => Rabs (P d)) (Rabs (B x)) SA -> @is_value R_ring (fun d => Rabs (P d)) 1 SC ->
  lsum (fun kv => Rabs (B x) ^ N.to_nat (fst kv)) g <= SX ->
  Rabs (B y - SP) <= ((1 + u) ^ (n + 2 + N.to_nat D) - 1) * SA + underflow f n (N.to_nat D) SX SC.
Proof.
  intros Ey Hy Hs Hk HD Hn HP Hout H1 H2 H3 HX.
  pose proof (@uro_pos f) as U. pose proof (@eta_pos f) as E0. set (X := B x) in *. pose proof (Rabs_pos X) as X0.
  assert (Nd := sorted_nodup g (proj1 Hs)).
  assert (Ho : forall d, ~ In (N.of_nat d) (map fst g) -> Rabs (P d) = 0) by (intros d K; rewrite (Hout d K); apply Rabs_R0).
  pose proof (@is_value_fun R_ring _ _ _ _ H1 (keyed_value g P X Nd Hout)) as ->. clear H1.
  pose proof (@is_value_fun R_ring _ _ _ _ H2 (keyed_value g _ _ Nd Ho)) as ->. clear H2.
  pose proof (@is_value_fun R_ring _ _ _ _ H3 (keyed_value g _ _ Nd Ho)) as ->. clear H3.
  destruct (C91_sparse chk f D g x Hs Hk HD) as (y' & Ey' & C). rewrite Ey in Ey'. injection Ey' as <-.
  pose proof (C Hy _ _ _ (spoly_sum f (fun a => B a) g X eq_refl Nd) (spoly_sum f (fun a => Rabs (B a)) g (Rabs X) Rabs_R0 Nd)
     (spoly_sum f (fun a => Rabs (B a)) g 1 Rabs_R0 Nd)) as K. clear C.
  rewrite (eval_fold chk f rt_powi g x) in Ey. injection Ey as Ey. assert (Fc : Forall (fun kv : N * flt f => is_finite (snd kv) = true) g) by (eapply fold_coefs; rewrite Ey; exact Hy).
  rewrite Forall_forall in Fc.
  set (ng := length g) in *. set (d := N.to_nat D) in *.
  set (V := lsum (fun kv : N * flt f => B (snd kv) * X ^ N.to_nat (fst kv)) g) in *.
  set (A := lsum (fun kv : N * flt f => Rabs (B (snd kv)) * Rabs X ^ N.to_nat (fst kv)) g) in *.
  set (Cg := lsum (fun kv : N * flt f => Rabs (B (snd kv)) * 1 ^ N.to_nat (fst kv)) g) in *.
  set (SP := lsum _ g). set (SA := lsum _ g). set (SC := lsum _ g).
  set (SG := lsum (fun kv : N * flt f => Rabs X ^ N.to_nat (fst kv)) g) in *.
  assert (Pw : forall k, 0 <= Rabs X ^ k) by (intros; apply pow_le, X0).
  assert (D1 : Rabs (V - SP) <= u * SA + eta f * SG).
  { unfold V, SP. rewrite lsum_sub. eapply Rle_trans; [apply lsum_abs|]. unfold SA, SG. rewrite <- lsum_lin. apply lsum_le. intros kv Hi.
    rewrite <- Rmult_minus_distr_r, Rabs_mult, <- RPow_abs. pose proof (HP kv Hi (Fc kv Hi)) as Q.
    apply (Rmult_le_compat_r _ _ _ (Pw (N.to_nat (fst kv)))) in Q. lra. }
  assert (Q : forall kv, In kv g -> Rabs (B (snd kv)) <= (1 + u) * Rabs (P (N.to_nat (fst kv))) + eta f).
  { intros kv Hi. pose proof (HP kv Hi (Fc kv Hi)) as Q.
    assert (Q1 : Rabs (B (snd kv)) <= Rabs (B (snd kv) - P (N.to_nat (fst kv))) + Rabs (P (N.to_nat (fst kv)))).
    { eapply Rle_trans; [|apply Rabs_triang]. right. f_equal. ring. } lra. }
  assert (D2 : A <= (1 + u) * SA + eta f * SG).
  { unfold A, SA, SG. rewrite <- lsum_lin. apply lsum_le. intros kv Hi. specialize (Q kv Hi).
    apply (Rmult_le_compat_r _ _ _ (Pw (N.to_nat (fst kv)))) in Q. lra. }
  assert (D3 : Cg <= (1 + u) * SC + eta f * INR n).
  { apply Rle_trans with ((1 + u) * SC + eta f * lsum (fun _ : N * flt f => 1) g).
    - unfold Cg, SC. rewrite <- lsum_lin. apply lsum_le. intros kv Hi. specialize (Q kv Hi). rewrite pow1. lra.
    - rewrite lsum_const. apply Rplus_le_compat_l, Rmult_le_compat_l; [lra|]. apply le_INR in Hn. unfold ng in Hn. lra. }
  assert (A0 : 0 <= A) by (apply lsum_pos; intros; apply Rmult_le_pos; [apply Rabs_pos|apply Pw]).
  assert (C0 : 0 <= Cg) by (apply lsum_pos; intros; apply Rmult_le_pos; [apply Rabs_pos|rewrite pow1; lra]).
  assert (SA0 : 0 <= SA) by (apply lsum_pos; intros; apply Rmult_le_pos; [apply Rabs_pos|apply Pw]).
  assert (SG0 : 0 <= SG) by (apply lsum_pos; intros; apply Pw).
  assert (G1 : 1 <= (1 + u) ^ (n + 1 + d)) by (apply pow_ge_1, U).
  assert (G2 : (1 + u) ^ (ng + 1 + d) <= (1 + u) ^ (n + 1 + d)) by (apply Rle_pow; [lra|lia]).
  assert (G3 : (1 + u) ^ ng <= (1 + u) ^ n) by (apply Rle_pow; [lra|lia]).
  assert (G4 : 1 <= (1 + u) ^ ng) by (apply pow_ge_1, U). assert (G5 : 1 <= (1 + u) ^ (ng + 1 + d)) by (apply pow_ge_1, U).
  assert (N1 : INR ng <= INR n) by (apply le_INR, Hn). pose proof (pos_INR ng) as N0. pose proof (pos_INR d) as Nd0.
  unfold underflow. replace (n + 2 + d)%nat with (S (n + 1 + d)) by lia. cbn [pow].
  set (gk := (1 + u) ^ (n + 1 + d)) in *. set (gn := (1 + u) ^ n) in *. set (hk := (1 + u) ^ (ng + 1 + d)) in *. set (hn := (1 + u) ^ ng) in *.
  assert (T1 : (hk - 1) * A <= (gk - 1) * ((1 + u) * SA + eta f * SG)) by (apply Rmult_le_compat; lra).
  assert (T2 : hk * INR d * eta f * Cg <= gk * INR d * eta f * ((1 + u) * SC + eta f * INR n)).
  { assert (0 <= hk * INR d) by (apply Rmult_le_pos; lra). assert (0 <= hk * INR d * eta f) by (apply Rmult_le_pos; lra).
    apply Rmult_le_compat; try assumption. apply Rmult_le_compat_r; [lra|]. apply Rmult_le_compat_r; lra. }
  assert (T3 : hn * INR ng * eta f <= gn * INR n * eta f).
  { apply Rmult_le_compat_r; [lra|]. apply Rmult_le_compat; lra. }
  assert (T4 : gk * (eta f * SG) <= gk * (eta f * SX)) by (apply Rmult_le_compat_l; [lra|]; apply Rmult_le_compat_l; lra).
  replace (B y - SP) with ((B y - V) + (V - SP)) by ring. eapply Rle_trans; [apply Rabs_triang|].
  eapply Rle_trans; [apply Rplus_le_compat; [exact K|exact D1]|]. 
  apply Rle_trans with ((gk - 1) * ((1 + u) * SA + eta f * SG) + gk * INR d * eta f * ((1 + u) * SC + eta f * INR n) + gn * INR n * eta f + (u * SA + eta f * SG)); [lra|].
  replace ((gk - 1) * ((1 + u) * SA + eta f * SG) + gk * INR d * eta f * ((1 + u) * SC + eta f * INR n) + gn * INR n * eta f + (u * SA + eta f * SG))
    with (((1 + u) * gk - 1) * SA + (gk * (eta f * SG) + gk * eta f * INR d * ((1 + u) * SC + INR n * eta f)) + gn * INR n * eta f) by ring.
  replace (gk * eta f * (SX + INR d * ((1 + u) * SC + INR n * eta f))) with (gk * (eta f * SX) + gk * eta f * INR d * ((1 + u) * SC + INR n * eta f)) by ring. lra.
Qed.

(** Rebuilding a map in increasing order of keys. *)
Lemma fold_append (step : bmap (flt f) -> N * flt f -> res (bmap (flt f))) (h : N * flt f -> option (N * flt f)) m :
  StronglySorted key_lt m ->
  (forall s kv, In kv m -> step s kv = Ok (match h kv with Some e => m_insert (fst e) (snd e) s | None => s end)) ->
  (forall a b x y, In a m -> In b m -> key_lt a b -> h a = Some x -> h b = Some y -> key_lt x y) ->
  forall acc, (forall a b y, In a acc -> In b m -> h b = Some y -> key_lt a y) ->
  foldM step acc m = Ok (acc ++ flat_map (fun kv => match h kv with Some e => [e] | None => [] end) m).
Proof.
  intros Hs. induction Hs as [|kv m Hs IH Hf]; intros Hst Hmo acc Ha; [cbn; rewrite app_nil_r; reflexivity|].
  cbn [foldM flat_map]. rewrite Hst by (left; reflexivity). cbn [bind]. rewrite Forall_forall in Hf.
  destruct (h kv) as [[k v]|] eqn:E; cbn [fst snd].
  - rewrite m_insert_last.
    2:{ rewrite Forall_forall. intros a Hi. apply (Ha a kv (k, v) Hi); [left; reflexivity|exact E]. }
    rewrite IH.
    + rewrite <- app_assoc. reflexivity.
    + intros; apply Hst; right; assumption.
    + intros; eapply Hmo; eauto; right; assumption.
    + intros a b y Hi Hb Ey. apply in_app_iff in Hi. destruct Hi as [Hi|[<-|[]]].
      * eapply Ha; [exact Hi|right; exact Hb|exact Ey].
      * eapply (Hmo kv b); [left; reflexivity|right; exact Hb|apply Hf, Hb|exact E|exact Ey].
  - apply IH.
    + intros; apply Hst; right; assumption.
    + intros; eapply Hmo; eauto; right; assumption.
    + intros a b y Hi Hb Ey. eapply Ha; [exact Hi|right; exact Hb|exact Ey].
Qed.

Definition int_entry (kv : N * flt f) : N * flt f := ((fst kv + 1)%N, fdiv (snd kv) (f_of_Z f (Z.of_N (fst kv + 1)))).
Definition der_entry (kv : N * flt f) : option (N * flt f) :=
  if negb (feqb (snd kv) (fzero f)) && negb (fst kv =? 0)%N then Some ((fst kv - 1)%N, fmul (snd kv) (f_of_Z f (Z.of_N (fst kv)))) else None.
Definition der_list m : bmap (flt f) := flat_map (fun kv => match der_entry kv with Some e => [e] | None => [] end) m.

Lemma der_in m e : In e (der_list m) <-> exists kv, In kv m /\ der_entry kv = Some e.
Proof.
  unfold der_list. rewrite in_flat_map. split; intros (kv & Hi & H); exists kv; (split; [exact Hi|]).
  - destruct (der_entry kv); [destruct H as [->|[]]; reflexivity|destruct H].
  - rewrite H. left. reflexivity.
Qed.
Lemma der_some kv e : der_entry kv = Some e <->
  feqb (snd kv) (fzero f) = false /\ fst kv <> 0%N /\ e = ((fst kv - 1)%N, fmul (snd kv) (f_of_Z f (Z.of_N (fst kv)))).
Proof.
  unfold der_entry. destruct (feqb (snd kv) (fzero f)); cbn [negb andb]; [split; [discriminate|intros [K _]; discriminate]|].
  destruct (N.eqb_spec (fst kv) 0); cbn [negb]; split; try discriminate; intros H; [tauto| |].
  - injection H as <-. auto.
  - destruct H as (_ & _ & ->). reflexivity.
Qed.

Lemma sparse_integral_list m D : swf m -> Forall (fun kv => (fst kv <= D)%N) m -> (D + 1 <= f_cont_limit f)%N ->
  sparse_integral O m = Ok (map int_entry m).
Proof.
  intros Hm Hk HD. rewrite Forall_forall in Hk. unfold sparse_integral. 
  assert (L : map int_entry m = [] ++ flat_map (fun kv => match Some (int_entry kv) with Some e => [e] | None => [] end) m).
  { clear. induction m as [|kv m IH]; [reflexivity|]. cbn [flat_map map app] in *; rewrite <- ?IH. reflexivity. }
  rewrite L. apply (fold_append _ (fun kv => Some (int_entry kv)) m (proj1 Hm)).
  - intros s [k v] Hi. cbn [int_entry fst snd]. specialize (Hk _ Hi). cbn [fst] in Hk.
    destruct (whole_cont f (k + 1)) as [W1 W2]; [lia|]. rewrite uadd_small by lia. cbn [bind].
    change (of_exact O (k + 1)%N) with (f_of_exact f (k + 1)). rewrite (whole_exact f _ W2 W1). reflexivity.
  - intros a b x y _ _ Lt [= <-] [= <-]. unfold key_lt in *. cbn. lia.
  - intros a b y [].
Qed.
Lemma sparse_derivative_list m D : swf m -> Forall (fun kv => (fst kv <= D)%N) m -> (D <= f_cont_limit f)%N ->
  sparse_derivative O m = Ok (der_list m).
Proof.
  intros Hm Hk HD. rewrite Forall_forall in Hk. unfold sparse_derivative.
  apply (fold_append _ der_entry m (proj1 Hm)) with (acc := []).
  - intros s [k v] Hi. unfold der_entry. cbn [fst snd]. specialize (Hk _ Hi). cbn [fst] in Hk. cbn [is_zero float_num].
    destruct (feqb v (fzero f)); [reflexivity|]. destruct (N.eqb_spec k 0); [reflexivity|]. cbn [negb andb].
    destruct (whole_cont f k) as [W1 W2]; [lia|]. rewrite usub_le by lia. cbn [bind].
    change (of_exact O k) with (f_of_exact f k). rewrite (whole_exact f _ W2 W1). reflexivity.
  - intros a b x y _ _ L E1 E2. apply der_some in E1, E2. destruct E1 as (_ & K1 & ->), E2 as (_ & K2 & ->). unfold key_lt in *. cbn. lia.
  - intros a b y [].
Qed.

Lemma int_list_swf m D : swf m -> Forall (fun kv => (fst kv <= D)%N) m -> (D + 1 <= f_cont_limit f)%N -> swf (map int_entry m).
Proof. intros Hm Hk HD. apply (integral_swf chk f (f_upow rt_powi) m); [exact Hm|]. exact (sparse_integral_list m D Hm Hk HD). Qed.
Lemma der_list_swf m : swf m -> swf (der_list m).
Proof.
  intros [Hs Hb]. split.
  - unfold der_list. induction Hs as [|kv m Hs IH Hf]; [constructor|]. inversion Hb; subst. cbn [flat_map].
    destruct (der_entry kv) as [e|] eqn:E; [|apply IH; assumption]. cbn [app]. constructor; [apply IH; assumption|].
    rewrite Forall_forall in *. intros e' Hi. apply (der_in m e') in Hi. destruct Hi as (kv' & Hi & E'). specialize (Hf _ Hi).
    apply der_some in E, E'. destruct E as (_ & K1 & ->), E' as (_ & K2 & ->). unfold key_lt in *. cbn. lia.
  - rewrite Forall_forall in *. intros e Hi. apply der_in in Hi. destruct Hi as (kv & Hi & E). specialize (Hb _ Hi). apply der_some in E. destruct E as (_ & _ & ->). cbn [fst] in *; lia.
Qed.
Lemma der_list_length m : (length (der_list m) <= length m)%nat.
Proof. unfold der_list. induction m as [|kv m IH]; [apply le_n|]. cbn [flat_map length]. rewrite app_length. destruct (der_entry kv); cbn [length]; lia. Qed.

Lemma coef_in m k v : swf m -> In (k, v) m -> spoly m (N.to_nat k) = B v.
Proof. intros Hm Hi. unfold spoly, P_FloatErr.mcoef. rewrite N2Nat.id, (sorted_in_get m k v (proj1 Hm) Hi). reflexivity. Qed.
Lemma coef_get m d : swf m -> spoly m d = 0 \/ exists v, In (N.of_nat d, v) m /\ spoly m d = B v.
Proof.
  intros Hm. unfold spoly, P_FloatErr.mcoef. destruct (m_get (N.of_nat d) m) as [v|] eqn:E; [|left; reflexivity].
  right. exists v. split; [apply m_get_in, E|reflexivity].
Qed.
Lemma spoly_out m D d : swf m -> Forall (fun kv => (fst kv <= D)%N) m -> (N.to_nat (D + 1) <= d)%nat -> spoly m d = 0.
Proof.
  intros Hm Hk Hd. destruct (coef_get m d Hm) as [K|(v & Hi & _)]; [exact K|]. rewrite Forall_forall in Hk. specialize (Hk _ Hi). cbn in Hk. lia.
Qed.
Lemma spoly_abs_eq m d : spoly_abs m d = Rabs (spoly m d).
Proof. reflexivity. Qed.
Lemma spoly_abs_out m D d : swf m -> Forall (fun kv => (fst kv <= D)%N) m -> (N.to_nat (D + 1) <= d)%nat -> spoly_abs m d = 0.
Proof. intros. rewrite spoly_abs_eq, (spoly_out m D d) by assumption. apply Rabs_R0. Qed.
Lemma cont_N k : (k <= f_cont_limit f)%N -> B (f_of_Z f (Z.of_N k)) = INR (N.to_nat k).
Proof. intros H. rewrite <- (cont_INR f (N.to_nat k)) by lia. f_equal. f_equal. lia. Qed.

Lemma prim_abs_s (c : nat -> R) d : Rabs (prim c d) = prim (fun d => Rabs (c d)) d.
Proof.
  destruct d as [|d]; cbn [prim]; [apply Rabs_R0|]. unfold Rdiv. rewrite Rabs_mult. f_equal.
  apply Rabs_pos_eq, Rlt_le, Rinv_0_lt_compat, lt_0_INR. lia.
Qed.
Lemma prim_value (c : nat -> R) n x : (forall i, (n <= i)%nat -> c i = 0) -> @is_value R_ring (prim c) x (sumR (fun d => prim c d * x ^ d) (S n)).
Proof.
  intros H. exists (S n). split; [|reflexivity]. intros [|i] Hi; [reflexivity|]. cbn [prim]. rewrite H by lia. unfold Rdiv. apply Rmult_0_l.
Qed.

Lemma pow_keys_up m x : lsum (fun kv : N * flt f => Rabs x ^ N.to_nat (fst kv)) (map int_entry m) = powers_up m x.
Proof. rewrite lsum_map. reflexivity. Qed.
Lemma pow_keys_down m x : lsum (fun kv : N * flt f => Rabs x ^ N.to_nat (fst kv)) (der_list m) <= powers_down m x.
Proof.
  unfold der_list, powers_down. induction m as [|kv m IH]; [apply Rle_refl|]. cbn [flat_map fold_right].
  pose proof (pow_le (Rabs x) (N.to_nat (fst kv - 1)) (Rabs_pos x)) as Q.
  destruct (der_entry kv) as [e|] eqn:E; cbn [app].
  - apply der_some in E. destruct E as (_ & _ & ->). cbn [lsum fold_right fst]. apply Rplus_le_compat_l, IH.
  - lra.
Qed.

Lemma area_from_evals m D s t yt ys (n := length m) (d := N.to_nat (D + 1)) : swf m -> Forall (fun kv => (fst kv <= D)%N) m ->
  (forall x y, x = s /\ y = ys \/ x = t /\ y = yt -> is_finite y = true -> forall SP SA SC,
    @is_value R_ring (prim (spoly m)) (B x) SP -> @is_value R_ring (fun d => Rabs (prim (spoly m) d)) (Rabs (B x)) SA ->
    @is_value R_ring (fun d => Rabs (prim (spoly m) d)) 1 SC ->
    Rabs (B y - SP) <= ((1 + u) ^ (n + 2 + d) - 1) * SA + underflow f n d (powers_up m (B x)) SC) ->
  near_sparse_area m D s t (fsub yt ys).
Proof.
  intros Hm Hk H F Fa v As At C Fy HF Hv HFa HAs HAt HC n0 d0.
  destruct (fsub_operands _ _ Fy) as [Fyt Fys]. destruct (fsub_err _ _ Fy) as (e & He & ->).
  pose proof (spoly_out m D) as R1. pose proof (spoly_abs_out m D) as R2.
  pose proof (area_fun _ _ _ _ _ Hv (prim_area (spoly m) _ F _ _ (fun i => R1 i Hm Hk) HF)) as ->.
  assert (Z : forall c, sumR (fun d => prim c d * 0 ^ d) (S (N.to_nat (D + 1))) = 0).
  { intros c. apply (@sumn_0 R_ring). intros [|i] _; cbn; ring. }
  pose proof (area_fun _ _ _ _ _ HAs (prim_area (spoly_abs m) _ Fa _ _ (fun i => R2 i Hm Hk) HFa)) as ->.
  pose proof (area_fun _ _ _ _ _ HAt (prim_area (spoly_abs m) _ Fa _ _ (fun i => R2 i Hm Hk) HFa)) as ->.
  pose proof (area_fun _ _ _ _ _ HC (prim_area (spoly_abs m) _ Fa _ _ (fun i => R2 i Hm Hk) HFa)) as ->.
  rewrite !Z, !Rminus_0_r. fold n d in n0, d0. subst n0 d0.
  assert (V1 : forall x, @is_value R_ring (prim (spoly m)) x (sumR (fun i => prim (spoly m) i * x ^ i) (S d))) by (intros x; apply prim_value; intros i Hi; apply R1; assumption).
  assert (V2 : forall x, @is_value R_ring (fun i => Rabs (prim (spoly m) i)) x (sumR (fun i => prim (spoly_abs m) i * x ^ i) (S d))).
  { intros x. eapply (@is_value_ext R_ring); [|apply prim_value; intros i Hi; apply R2; assumption]. intros i. rewrite prim_abs_s. reflexivity. }
  pose proof (H s ys (or_introl (conj eq_refl eq_refl)) Fys _ _ _ (V1 _) (V2 _) (V2 _)) as Ns.
  pose proof (H t yt (or_intror (conj eq_refl eq_refl)) Fyt _ _ _ (V1 _) (V2 _) (V2 _)) as Nt.
  assert (Q3 : forall x, Rabs (sumR (fun i => prim (spoly m) i * x ^ i) (S d)) <= sumR (fun i => prim (spoly_abs m) i * Rabs x ^ i) (S d)).
  { intros x. eapply Rle_trans; [apply sumR_abs|]. apply sumR_le. intros i _. rewrite Rabs_mult, prim_abs_s, RPow_abs. apply Rle_refl. }
  pose proof (@uro_pos f) as U. pose proof (@eta_pos f) as E0.
  assert (C0 : 0 <= sumR (fun i => prim (spoly_abs m) i * 1 ^ i) (S d)).
  { rewrite <- Rabs_R1. eapply Rle_trans; [apply Rabs_pos|]. apply (Q3 1). }
  assert (T0 : forall x, 0 <= underflow f n d (powers_up m x) (sumR (fun i => prim (spoly_abs m) i * 1 ^ i) (S d))).
  { intros x. revert C0. generalize (sumR (fun i => prim (spoly_abs m) i * 1 ^ i) (S d)). intros C1 C0. unfold underflow. assert (G1 := pow_ge_1 u U (n + 1 + d)). assert (G2 := pow_ge_1 u U n).
    assert (0 <= powers_up m x). { rewrite <- (pow_keys_up m x). apply lsum_pos. intros. apply pow_le, Rabs_pos. }
    pose proof (pos_INR n). pose proof (pos_INR d).
    assert (P1 : forall a b c S n' : R, 0 <= a -> 0 <= b -> 0 <= c -> 0 <= S -> 0 <= n' -> 0 <= a * b * (S + c * ((1 + u) * C1 + n' * b))).
    { intros. apply Rmult_le_pos; [apply Rmult_le_pos; assumption|]. apply Rplus_le_le_0_compat; [assumption|]. apply Rmult_le_pos; [assumption|].
      apply Rplus_le_le_0_compat; apply Rmult_le_pos; try assumption; lra. }
    assert (P2 : forall a b c : R, 0 <= a -> 0 <= b -> 0 <= c -> 0 <= a * b * c) by (intros; repeat apply Rmult_le_pos; assumption).
    apply Rplus_le_le_0_compat; [apply P1; lra|apply P2; lra]. }
  pose proof (diff_arith f (n + 2 + d) _ _ _ _ _ _ _ _ e (Rle_trans _ _ _ (Rabs_pos _) (Q3 (B t))) (Rle_trans _ _ _ (Rabs_pos _) (Q3 (B s)))
    (T0 (B t)) (T0 (B s)) (Q3 _) (Q3 _) He Nt Ns) as K.
  replace (n + 3 + d)%nat with (S (n + 2 + d)) by lia. exact K.
Qed.
End Near.

(** ** Theorems *)
Theorem C94_integral : forall chk f D (m : bmap (flt f)) (s t : flt f), let O := float_num chk f (f_upow rt_powi) in
  swf m -> Forall (fun kv => (fst kv <= D)%N) m -> (D + 1 <= f_cont_limit f)%N -> (D + 1 < 2 ^ 31)%N ->
  exists g y, sparse_integral O m = Ok g /\ sparse_integral_eval O g s t = Ok y /\ near_sparse_area m D s t y.
Proof.
  intros chk f D m s t O Hm Hk HD HD2. set (g := map (int_entry f) m).
  assert (Hg : swf g) by (apply (int_list_swf chk f m D); assumption).
  pose proof (eval_fold chk f rt_powi g t) as Et. pose proof (eval_fold chk f rt_powi g s) as Es. fold O in Et, Es.
  set (yt := fold_left _ g _) in Et. set (ys := fold_left _ g _) in Es.
  exists g, (fsub yt ys). split; [apply (sparse_integral_list chk f m D); assumption|].
  split; [unfold sparse_integral_eval; rewrite Et; cbn [bind]; rewrite Es; reflexivity|].
  apply (area_from_evals f m D s t yt ys Hm Hk). intros x y Hxy Fy SP SA SC V1 V2 V3.
  assert (Ey : sparse_eval O g x = Ok y) by (destruct Hxy as [[-> ->]|[-> ->]]; assumption).
  apply (sparse_eval_near chk f g (prim (spoly m)) x y (length m) (D + 1) SP SA SC (powers_up m (B2R x)) Ey Fy Hg); try assumption.
  - unfold g. rewrite Forall_map. eapply Forall_impl; [|exact Hk]. intros kv; cbn. lia.
  - unfold g. rewrite map_length. apply le_n.
  - intros kv Hi. apply in_map_iff in Hi. destruct Hi as ([k v] & <- & Hi). cbn [int_entry fst snd]. rewrite Forall_forall in Hk. specialize (Hk _ Hi). cbn [fst] in Hk.
    replace (N.to_nat (k + 1)) with (S (N.to_nat k)) by lia. cbn [prim]. rewrite (coef_in f m k v Hm Hi). intros Ff.
    assert (E : INR (S (N.to_nat k)) = B2R (f_of_Z f (Z.of_N (k + 1)))) by (rewrite cont_N by lia; f_equal; lia). rewrite E.
    apply near_div; [|exact Ff]. rewrite <- E. apply not_0_INR. discriminate.
  - intros [|d] Hd; [reflexivity|]. cbn [prim]. destruct (coef_get f m d Hm) as [->|(v & Hi & _)]; [unfold Rdiv; apply Rmult_0_l|].
    exfalso. apply Hd. unfold g. apply in_map_iff. exists (int_entry f (N.of_nat d, v)). split; [cbn [int_entry fst]; lia|]. apply in_map, Hi.
  - unfold g. rewrite pow_keys_up. apply Rle_refl.
Qed.

Theorem C94_slope : forall chk f D (m : bmap (flt f)) (x : flt f), let O := float_num chk f (f_upow rt_powi) in
  swf m -> Forall (fun kv => (fst kv <= D)%N) m -> (D <= f_cont_limit f)%N -> (D < 2 ^ 31)%N ->
  exists g y, sparse_derivative O m = Ok g /\ sparse_eval O g x = Ok y /\ near_sparse_slope m D x y.
Proof.
  intros chk f D m x O Hm Hk HD HD2. set (g := der_list f m).
  assert (Hg : swf g) by (apply der_list_swf; assumption).
  pose proof (eval_fold chk f rt_powi g x) as Ex. fold O in Ex. set (y := fold_left _ g _) in Ex.
  exists g, y. split; [apply (sparse_derivative_list chk f m D); assumption|]. split; [exact Ex|].
  intros F Fa v A C Fy HF Hv HFa HA HC n d. pose proof (spoly_out f m D) as R1. pose proof (spoly_abs_out f m D) as R2.
  rewrite (deriv_slope _ _ F _ v (fun i => R1 i Hm Hk) HF Hv), (deriv_slope _ _ Fa _ A (fun i => R2 i Hm Hk) HFa HA), (deriv_slope _ _ Fa _ C (fun i => R2 i Hm Hk) HFa HC).
  set (P := fun i => spoly m (S i) * INR (S i)).
  assert (Pa : forall i, Rabs (P i) = spoly_abs m (S i) * INR (S i)) by (intros i; unfold P; rewrite Rabs_mult, (Rabs_pos_eq (INR (S i))) by apply pos_INR; reflexivity).
  assert (Po : forall i, (N.to_nat (D + 1) - 1 <= i)%nat -> P i = 0) by (intros i Hi; unfold P; rewrite R1 by (assumption || lia); apply Rmult_0_l).
  apply (sparse_eval_near chk f g P x y n (D - 1) _ _ _ (powers_down m (B2R x)) Ex Fy Hg).
  - unfold g. apply Forall_forall. intros e Hi. apply der_in in Hi. destruct Hi as (kv & Hi & E). apply der_some in E. destruct E as (_ & K & ->).
    rewrite Forall_forall in Hk. specialize (Hk _ Hi). cbn [fst]. lia.
  - lia.
  - apply der_list_length.
  - intros e Hi. apply der_in in Hi. destruct Hi as ([k w] & Hi & E). apply der_some in E. cbn [fst snd] in E. destruct E as (_ & K & ->). cbn [fst snd].
    rewrite Forall_forall in Hk. specialize (Hk _ Hi). cbn [fst] in Hk. unfold P. replace (S (N.to_nat (k - 1))) with (N.to_nat k) by lia.
    rewrite (coef_in f m k w Hm Hi), <- (cont_N f k) by lia. apply near_mul.
  - intros i Hi. unfold P. destruct (coef_get f m (S i) Hm) as [->|(w & Hw & ->)]; [apply Rmult_0_l|].
    destruct (feqb w (fzero f)) eqn:Ez; [apply feqb_zero in Ez; destruct Ez as [r ->]; apply Rmult_0_l|].
    exfalso. apply Hi. apply in_map_iff. exists (N.of_nat i, fmul w (f_of_Z f (Z.of_N (N.of_nat (S i))))). split; [reflexivity|]. apply der_in. exists (N.of_nat (S i), w).
    split; [exact Hw|]. apply der_some. cbn [fst snd]. split; [exact Ez|]. split; [lia|]. f_equal. lia.
  - exists (N.to_nat (D + 1) - 1)%nat. split; [exact Po|reflexivity].
  - exists (N.to_nat (D + 1) - 1)%nat. split; [intros i Hi; rewrite (Po i Hi); apply Rabs_R0|]. apply (@sumn_ext R_ring). intros i _. rewrite Pa. reflexivity.
  - exists (N.to_nat (D + 1) - 1)%nat. split; [intros i Hi; rewrite (Po i Hi); apply Rabs_R0|]. apply (@sumn_ext R_ring). intros i _. rewrite Pa. reflexivity.
  - apply pow_keys_down.
Qed.

(** Monomials, seen as a single stored entry. *)
Lemma one_swf f k (c : flt f) : (k <= USIZE_MAX)%N -> swf [(k, c)].
Proof. intros H. split; repeat constructor. exact H. Qed.
Lemma fadd_zero_l f (a : flt f) : is_finite a = true -> is_finite (fadd (fzero f) a) = true /\ B2R (fadd (fzero f) a) = B2R a.
Proof. intros H. destruct a as [r|r| |r p e Hb]; try discriminate H; [destruct r|]; split; reflexivity. Qed.

Lemma zero_mul f (a : flt f) : is_finite (fmul (fzero f) a) = true -> B2R (fmul (fzero f) a) = 0.
Proof. intros H. destruct (fmul_operands _ _ H) as [_ Ha]. destruct a as [r|r| |r p e Hb]; try discriminate Ha; reflexivity. Qed.

Theorem C94_monomial_slope : forall chk f k (c : flt f) (x : flt f), let O := float_num chk f (f_upow rt_powi) in
  (k <= f_cont_limit f)%N -> (k < 2 ^ 31)%N ->
  exists g y, mono_derivative O (MkMono c k) = Ok g /\ mono_eval O g x = Ok y /\ near_sparse_slope [(k, c)] k x y.
Proof.
  intros chk f k c x O HD HD2. destruct (whole_cont f k HD) as [W1 W2].
  destruct (C94_slope chk f k [(k, c)] x) as (g0 & y0 & E1 & E2 & H); [apply one_swf; lia|repeat constructor; cbn; lia|exact HD|exact HD2|]. fold O in E1, E2.
  pose proof (sparse_derivative_list chk f [(k, c)] k) as L. fold O in L. rewrite L in E1; [|apply one_swf; lia|repeat constructor; cbn; lia|exact HD]. injection E1 as <-.
  unfold mono_derivative, mono_degree. cbn [Mono.mcoef mdeg].
  assert (T : forall g y, mono_eval O g x = Ok y -> (is_finite y = true -> is_finite y0 = true /\ B2R y0 = B2R y) ->
    exists g' y, Ok g = Ok g' /\ mono_eval O g' x = Ok y /\ near_sparse_slope [(k, c)] k x y).
  { intros g y E K. exists g, y. split; [reflexivity|]. split; [exact E|]. intros F Fa v A C Fy. destruct (K Fy) as [F0 <-]. apply H, F0. }
  unfold der_list, der_entry in E2. cbn [flat_map fst snd app] in E2. cbn [is_zero float_num O]. destruct (feqb c (fzero f)) eqn:Ez; cbn [negb andb] in E2.
  - eapply T; [reflexivity|]. intros Fy. injection E2 as <-. split; [reflexivity|]. symmetry. apply (zero_mul f _ Fy).
  - destruct (N.eqb_spec k 0) as [->|K]; cbn [negb app] in E2.
    + eapply T; [reflexivity|]. intros Fy. injection E2 as <-. split; [reflexivity|]. symmetry. apply (zero_mul f _ Fy).
    + destruct k as [|k]; [lia|]. cbn [fst snd]. change (of_exact O (N.pos k)) with (f_of_exact f (N.pos k)). rewrite (whole_exact f _ W2 W1). cbn [expect bind mul float_num O].
      rewrite usub_le by lia. cbn [bind]. fold O. eapply T; [reflexivity|]. intros Fy. injection E2 as <-. apply fadd_zero_l. exact Fy.
Qed.

Theorem C94_monomial_integral : forall chk f k (c : flt f) (s t : flt f), let O := float_num chk f (f_upow rt_powi) in
  (k + 1 <= f_cont_limit f)%N -> (k + 1 < 2 ^ 31)%N -> is_finite c = true ->
  exists g y, mono_integral O (MkMono c k) = Ok g /\ sparse_integral_eval O g s t = Ok y /\ near_sparse_area [(k, c)] k s t y.
Proof.
  intros chk f k c s t O HD HD2 Fc. destruct (whole_cont f (k + 1) HD) as [W1 W2].
  assert (Sw : swf [(k, c)]) by (apply one_swf; lia). assert (Fk : Forall (fun kv : N * flt f => (fst kv <= k)%N) [(k, c)]) by (repeat constructor; cbn; lia).
  assert (In0 : INR (S (N.to_nat k)) = B2R (f_of_Z f (Z.of_N (k + 1)))) by (rewrite cont_N by lia; f_equal; lia).
  assert (Nz : INR (S (N.to_nat k)) <> 0) by (apply not_0_INR; discriminate).
  set (q := fdiv c (f_of_Z f (Z.of_N (k + 1)))).
  set (p := B2R c / INR (S (N.to_nat k))).
  (* nothing stored *)
  assert (Miss : Rabs p <= uro f * Rabs p + eta f -> exists g' y, Ok [] = Ok g' /\ sparse_integral_eval O g' s t = Ok y /\ near_sparse_area [(k, c)] k s t y).
  { intros Hp. eexists _, _. split; [reflexivity|]. split; [reflexivity|]. apply (area_from_evals f [(k, c)] k s t (fzero f) (fzero f) Sw Fk).
    intros x y Hxy _ SP SA SC V1 V2 V3. assert (Ey : B2R y = 0) by (destruct Hxy as [[_ ->]|[_ ->]]; reflexivity). rewrite Ey.
    assert (Nd : NoDup (map fst [((k + 1)%N, c)])) by (repeat constructor; intros []).
    assert (Out : forall d, ~ In (N.of_nat d) (map fst [((k + 1)%N, c)]) -> prim (spoly [(k, c)]) d = 0).
    { intros [|d] Hd; [reflexivity|]. cbn [prim]. destruct (coef_get f [(k, c)] d Sw) as [->|(v & [[= Hi _]|[]] & _)]; [unfold Rdiv; apply Rmult_0_l|].
      exfalso. apply Hd. left. cbn [fst]. lia. }
    assert (Out' : forall d, ~ In (N.of_nat d) (map fst [((k + 1)%N, c)]) -> Rabs (prim (spoly [(k, c)]) d) = 0) by (intros d Hd; rewrite Out by exact Hd; apply Rabs_R0).
    rewrite (@is_value_fun R_ring _ _ _ _ V1 (keyed_value _ _ _ Nd Out)).
    rewrite (@is_value_fun R_ring _ _ _ _ V2 (keyed_value _ _ _ Nd Out')), (@is_value_fun R_ring _ _ _ _ V3 (keyed_value _ _ _ Nd Out')).
    cbn [lsum fold_right fst length powers_up]. replace (prim (spoly [(k, c)]) (N.to_nat (k + 1))) with p.
    2:{ replace (N.to_nat (k + 1)) with (S (N.to_nat k)) by lia. cbn [prim]. rewrite (coef_in f [(k, c)] k c Sw) by (left; reflexivity). reflexivity. }
    unfold underflow. set (d := N.to_nat (k + 1)). set (X := B2R x). rewrite pow1, Rmult_1_r, !Rplus_0_r.
    pose proof (@uro_pos f) as U. pose proof (@eta_pos f) as E0. assert (G1 := pow_ge_1 (uro f) U (1 + 1 + d)). assert (G2 := pow_ge_1 (uro f) U 1).
    replace (1 + 2 + d)%nat with (S (1 + 1 + d)) by lia. rewrite <- (tech_pow_Rmult (1 + uro f) (1 + 1 + d)). set (gk := (1 + uro f) ^ (1 + 1 + d)) in *. 
    pose proof (pow_le (Rabs X) d (Rabs_pos X)) as X0. pose proof (pos_INR d) as D0. pose proof (Rabs_pos p) as P0.
    rewrite Rminus_0_l, Rabs_Ropp, Rabs_mult, <- RPow_abs. set (Xd := Rabs X ^ d) in *. cbn [INR]. rewrite pow_1.
    assert (T1 : Rabs p * Xd <= (uro f * Rabs p + eta f) * Xd) by (apply Rmult_le_compat_r; assumption).
    assert (Q0 : 0 <= Rabs p * Xd) by (apply Rmult_le_pos; assumption). assert (Q1 : 0 <= eta f * Xd) by (apply Rmult_le_pos; lra).
    assert (T2 : uro f * (Rabs p * Xd) <= ((1 + uro f) * gk - 1) * (Rabs p * Xd)) by (apply Rmult_le_compat_r; [exact Q0|nra]).
    assert (T3 : eta f * Xd <= gk * (eta f * Xd)) by nra.
    assert (T4 : 0 <= gk * eta f * (INR d * ((1 + uro f) * Rabs p + 1 * eta f))).
    { apply Rmult_le_pos; [apply Rmult_le_pos; lra|]. apply Rmult_le_pos; [exact D0|]. assert (0 <= (1 + uro f) * Rabs p) by (apply Rmult_le_pos; lra). lra. }
    assert (T5 : 0 <= (1 + uro f) * 1 * eta f) by (rewrite Rmult_1_r; apply Rmult_le_pos; lra).
    replace (gk * eta f * (Xd + INR d * ((1 + uro f) * Rabs p + 1 * eta f))) with (gk * (eta f * Xd) + gk * eta f * (INR d * ((1 + uro f) * Rabs p + 1 * eta f))) by ring. lra. }
  unfold mono_integral, mono_degree. cbn [Mono.mcoef mdeg is_zero float_num O]. destruct (feqb c (fzero f)) eqn:Ez.
  - apply Miss. apply feqb_zero in Ez. destruct Ez as [r Er]. unfold p. rewrite Er. change (B2R (B754_zero r)) with 0. unfold Rdiv. rewrite Rmult_0_l, Rabs_R0. pose proof (@eta_pos f). lra.
  - fold O. rewrite uadd_small by lia. cbn [bind]. change (of_exact O (k + 1)%N) with (f_of_exact f (k + 1)). rewrite (whole_exact f _ W2 W1). cbn [expect bind div float_num O]. fold q. fold O.
    unfold sparse_from_terms. cbn [foldM fst snd]. unfold sparse_add_term. cbn [is_zero float_num O]. destruct (feqb q (fzero f)) eqn:Eq; cbn [bind].
    + apply Miss. apply feqb_zero in Eq. destruct Eq as [r Er]. assert (Fq : is_finite q = true) by (rewrite Er; reflexivity).
      pose proof (near_div f c (f_of_Z f (Z.of_N (k + 1))) ltac:(rewrite <- In0; exact Nz) Fq) as Q. rewrite <- In0 in Q. fold q p in Q. rewrite Er in Q. change (B2R (B754_zero r)) with 0 in Q.
      rewrite Rminus_0_l, Rabs_Ropp in Q. exact Q.
    + cbn. destruct (C94_integral chk f k [(k, c)] s t Sw Fk HD HD2) as (g & y & Eg & Ey & H). fold O in Eg, Ey.
      pose proof (sparse_integral_list chk f [(k, c)] k Sw Fk HD) as L. fold O in L. rewrite L in Eg. injection Eg as <-. exists (map (int_entry f) [(k, c)]), y. split; [reflexivity|]. split; [exact Ey|exact H].
Qed.

(** 0.1 x^50 + 0.3 over f64, integrated from 0.1 to 0.9 and differentiated at 0.9; and a monomial whose
    integral 2^-1074 x^3 / 3 underflows to nothing stored. *)
Example C94_case : let O := float_num true F64 (f_upow rt_powi) in
  let tenth z := fdiv (f_of_Z F64 z) (f_of_Z F64 10) in let m := [(0%N, tenth 3%Z); (50%N, tenth 1%Z)] in
  swf m /\ Forall (fun kv => (fst kv <= 50)%N) m /\ (50 + 1 <= f_cont_limit F64)%N /\ (50 + 1 < 2 ^ 31)%N /\
  rmap (fun y : flt F64 => is_finite y) (g <- sparse_integral O m ;; sparse_integral_eval O g (tenth 1%Z) (tenth 9%Z)) = Ok true /\
  rmap (fun y : flt F64 => is_finite y) (g <- sparse_derivative O m ;; sparse_eval O g (tenth 9%Z)) = Ok true /\
  rmap (fun y : flt F64 => is_finite y) (g <- mono_derivative O (MkMono (tenth 1%Z) 50) ;; mono_eval O g (tenth 9%Z)) = Ok true /\
  (exists F, forall x, @is_value R_ring (spoly m) x (F x)) /\ (exists Fa, forall x, @is_value R_ring (spoly_abs m) x (Fa x)).
Proof.
  intros O tenth m. assert (Sw : swf m) by (split; repeat constructor; cbn; discriminate).
  assert (Fk : Forall (fun kv => (fst kv <= 50)%N) m) by (repeat constructor; cbn; discriminate).
  split; [exact Sw|]. split; [exact Fk|]. split; [vm_compute; discriminate|]. split; [reflexivity|].
  split; [vm_compute; reflexivity|]. split; [vm_compute; reflexivity|]. split; [vm_compute; reflexivity|]. split.
  - exists (fun x => sumR (fun d => spoly m d * x ^ d) (N.to_nat (50 + 1))). intros x. exists (N.to_nat (50 + 1)). split; [intros i; apply (spoly_out F64 m 50 i Sw Fk)|reflexivity].
  - exists (fun x => sumR (fun d => spoly_abs m d * x ^ d) (N.to_nat (50 + 1))). intros x. exists (N.to_nat (50 + 1)). split; [intros i; apply (spoly_abs_out F64 m 50 i Sw Fk)|reflexivity].
Qed.
Example C94_underflow_case : let O := float_num true F64 (f_upow rt_powi) in
  let least : flt F64 := @B754_finite (fprec F64) (femax F64) false 1 (-1074) eq_refl in
  is_finite least = true /\ mono_integral O (MkMono least 2) = Ok [].
Proof. split; vm_compute; reflexivity. Qed.

Print Assumptions C94_integral.
Print Assumptions C94_slope.
Print Assumptions C94_monomial_slope.
Print Assumptions C94_monomial_integral.
