(** Properties C12-C21 and C56 of dense polynomials ([Polynomial<N>]). *)

From Coq Require Import List NArith ZArith Lia Bool Arith QArith Qcanon.
From Coq Require Import ZifyBool ZifyNat ZifyN.
From Verif Require Import Base Num Spec SpecFacts Laws Terms Dense.
From Verif Require Import DenseFacts DenseArith DenseMul DenseCalc DenseCalcInt DenseShift DenseDiv DenseDivInt.
From Verif Require Import Wrap P_Dense1.
Import ListNotations.

Local Close Scope Qc_scope.
Local Close Scope Q_scope.

Definition i32s (l : list Z) : list (int I32) := map (mk_int I32) l.

(** ** C12 *)

Theorem C12_dense_eval : forall T (O : num T) R den, lawful O R den -> forall l x r,
  dense_eval O l x = Ok r -> is_value (dcoef R den l) (den x) (den r).
Proof. exact @dense_eval_value. Qed.

Theorem C12_dense_eval_returns : forall T (O : num T), total_ops O -> forall l x,
  exists r, dense_eval O l x = Ok r.
Proof. exact @dense_eval_total. Qed.

(** At zero the constant term is returned, for every type and without overflow. *)
Theorem C12_dense_eval_at_zero : forall T (O : num T) R den, lawful O R den -> forall l x,
  den x = r0 -> exists r, dense_eval O l x = Ok r /\ den r = dcoef R den l 0%nat.
Proof.
  intros T O R den L l x Hx. unfold dense_eval. pose proof (split_last_spec l) as Hs.
  destruct (split_last l) as [[y i]|].
  - assert (Hz : is_zero O x = true) by (apply (lw_is_zero _ _ _ L), Hx). rewrite Hz.
    exists y. split; [reflexivity|]. subst l. rewrite dcoef_snoc. reflexivity.
  - exists (zero O). split; [reflexivity|]. subst l. rewrite dcoef_nil. apply (lw_zero _ _ _ L).
Qed.

(** Evaluation commutes with the polynomial operations. *)
Theorem C12_dense_eval_hom : forall T (O : num T) R den, lawful O R den -> forall a b x va vb,
  dense_eval O a x = Ok va -> dense_eval O b x = Ok vb ->
  (forall s v, dense_add O a b = Ok s -> dense_eval O s x = Ok v -> den v = radd (den va) (den vb)) /\
  (forall s v, dense_sub O a b = Ok s -> dense_eval O s x = Ok v -> den v = rsub (den va) (den vb)) /\
  (forall s v, vec_ok O a -> vec_ok O b -> dense_mul O a b = Ok s -> dense_eval O s x = Ok v ->
     den v = rmul (den va) (den vb)) /\
  (forall fuel e s v, vec_ok O a -> (1 <= n_max_len O)%N -> dense_pow O fuel a e = Ok s ->
     dense_eval O s x = Ok v -> den v = rpow (den va) (N.to_nat e)).
Proof.
  intros T O R den L a b x va vb Ha Hb.
  apply (dense_eval_value O R den L) in Ha. apply (dense_eval_value O R den L) in Hb.
  split; [|split; [|split]]; intros.
  - apply (dense_eval_value O R den L) in H0. eapply is_value_fun; [exact H0|].
    eapply is_value_ext; [apply peq_sym, (C06_dense_add _ _ _ _ L a b s (or_introl H))|].
    apply is_value_padd; assumption.
  - apply (dense_eval_value O R den L) in H0. eapply is_value_fun; [exact H0|].
    eapply is_value_ext; [apply peq_sym, (C07_dense_sub _ _ _ _ L a b s (or_introl H))|].
    apply is_value_psub; assumption.
  - apply (dense_eval_value O R den L) in H2. eapply is_value_fun; [exact H2|].
    eapply is_value_ext; [apply peq_sym, (C08_dense_mul _ _ _ _ L a b s H H0 (or_introl H1))|].
    apply is_value_pmul; assumption.
  - apply (dense_eval_value O R den L) in H2. eapply is_value_fun; [exact H2|].
    eapply is_value_ext; [apply peq_sym, (C10_dense_pow _ _ _ _ L H0 fuel a e s H H1)|].
    apply is_value_ppow; assumption.
Qed.

(** Wrapping integers: the exact value reduced modulo 2^bits; it always returns. *)
Theorem C12_dense_eval_int_wrapping : forall t (l : list (int t)) x v,
  @is_value Z_ring (dcoef Z_ring ival l) (ival x) v ->
  exists r, dense_eval (int_num false t) l x = Ok r /\ ival r = wrap t v.
Proof.
  intros t l x v Hv. destruct (dense_eval_total (int_num false t) (wrapping_total t) l x) as (r & Hr).
  exists r. split; [exact Hr|]. apply (C12_dense_eval _ _ _ _ (wrapping_lawful t)) in Hr.
  apply (wred_value t) in Hv. rewrite mk_int_ival in Hv.
  assert (E : r = mk_int t v).
  { refine (is_value_fun _ _ _ _ Hr _). eapply is_value_ext; [|exact Hv].
    apply peq_sym, dcoef_wred. }
  rewrite E. reflexivity.
Qed.

Example C12_case : rmap ival (dense_eval (int_num true I32) (i32s [0; 2; -3; 5]%Z) (mk_int I32 4)) = Ok 25%Z
  /\ @is_value Z_ring (dcoef Z_ring ival (i32s [0; 2; -3; 5]%Z)) 4%Z 25%Z
  /\ rmap ival (dense_eval (int_num false U8) (map (mk_int U8) [200; 0; 1]%Z) (mk_int U8 2)) = Ok 33%Z.
Proof.
  split; [vm_compute; reflexivity|]. split; [|vm_compute; reflexivity].
  exists 4%nat. split; [|vm_compute; reflexivity]. intros i Hi. apply dcoef_overflow. exact Hi.
Qed.

(** ** C13 *)

Theorem C13_dense_derivative : forall T (O : num T) R den, lawful O R den -> forall l r,
  vec_ok O l -> dense_derivative O l = Ok r -> peq (dcoef R den r) (pderiv (dcoef R den l)).
Proof. exact @dense_derivative_coef. Qed.

(** [1 + degree] of a polynomial as a number (0 for the zero polynomial). *)
Definition degree1 (g : option nat) : N := match g with None => 0%N | Some n => N.of_nat (S n) end.

Lemma degree1_strip {T} (O : num T) R den (L : lawful O R den) l g :
  is_degree (dcoef R den l) g -> degree1 g = len (strip O l).
Proof.
  intros H. rewrite (is_degree_unique _ _ _ H (dense_degree_spec O R den L l)). rewrite dense_degree_strip.
  destruct (strip O l); simpl; [reflexivity|]. unfold len. simpl length. lia.
Qed.

(** With total arithmetic it returns iff [degree + 1] is representable; *)
Theorem C13_dense_derivative_returns : forall T (O : num T) R den, lawful O R den -> total_ops O -> forall l g,
  is_degree (dcoef R den l) g ->
  ((exists r, dense_derivative O l = Ok r) <-> of_cont O (degree1 g) <> None).
Proof.
  intros T O R den L HT l g Hg. rewrite (degree1_strip O R den L l g Hg). split.
  - intros (r & Hr) E. rewrite (dense_derivative_expect O l E) in Hr. discriminate.
  - apply (dense_derivative_total O HT).
Qed.

(** for overflow-checked integers, iff moreover every coefficient of the derivative is
    in range. *)
Theorem C13_dense_derivative_int_checked_returns : forall t (l : list (int t)) g,
  vec_ok (int_num true t) l -> is_degree (dcoef Z_ring ival l) g ->
  ((exists r, dense_derivative (int_num true t) l = Ok r) <->
   (of_cont (int_num true t) (degree1 g) <> None /\
    forall d, in_range t (Z.of_nat (S d) * dcoef Z_ring ival l (S d)) = true)).
Proof.
  intros t l g Hv Hg. rewrite (degree1_strip _ _ _ (checked_lawful t) l g Hg).
  rewrite (dense_derivative_returns t l Hv). unfold pderiv. cbn [rmul Z_ring].
  split; intros [H1 H2]; (split; [exact H1|]); intros d; specialize (H2 d);
    rewrite Z_of_nat_ring in *; exact H2.
Qed.

Example C13_case : rmap (map ival) (dense_derivative (int_num true I32) (i32s [0; 2; -3; 0; 5; 9]%Z)) = Ok [8; -9; 0; 5]%Z.
Proof. vm_compute. reflexivity. Qed.

(** ** C14 *)

Theorem C14_dense_integral : forall T (O : num T) R den, lawful O R den -> forall l r g,
  vec_ok O l -> is_degree (dcoef R den l) g -> dense_integral O l = Ok r ->
  dcoef R den r 0%nat = r0 /\
  forall d, if (N.of_nat d <? degree1 g)%N
    then exists t n q, den t = dcoef R den l d /\ den n = of_nat (S d) /\
                       div O t n = Ok q /\ dcoef R den r (S d) = den q
    else dcoef R den r (S d) = r0.
Proof.
  intros T O R den L l r g Hv Hg H. rewrite (degree1_strip O R den L l g Hg).
  destruct (dense_integral_spec O R den L l r Hv H) as (_ & H0 & _ & Hc). split; [exact H0|].
  intros d. specialize (Hc d). unfold len.
  destruct (Nat.ltb_spec d (length (strip O l))), (N.ltb_spec (N.of_nat d) (N.of_nat (length (strip O l)))); try lia.
  - destruct Hc as (t & n & q & A & B & C & D). exists t, n, q. auto.
  - exact Hc.
Qed.

(** Fundamental theorem: with exact division the derivative of the integral is the
    original, and the integral exists whenever it fits in memory. *)
Theorem C14_dense_integral_exact : forall T (O : num T) R den, lawful O R den -> total_ops O ->
  exact_div O R den -> char0 R -> forall l g,
  (len l + 1 <= n_max_len O)%N -> is_degree (dcoef R den l) g -> of_cont O (degree1 g) <> None ->
  exists r, dense_integral O l = Ok r /\ dcoef R den r 0%nat = r0 /\ peq (pderiv (dcoef R den r)) (dcoef R den l).
Proof.
  intros T O R den L HT X C l g Hv Hg Hn. rewrite (degree1_strip O R den L l g Hg) in Hn.
  destruct (dense_integral_total O R den L HT X C l Hv Hn) as (r & Hr). exists r. split; [exact Hr|].
  apply (dense_integral_exact O R den L X C l r); [unfold vec_ok; lia|exact Hr].
Qed.

(** Integers, both modes: truncated division; it returns whenever [degree + 1] is
    representable and one more coefficient fits in memory. *)
Theorem C14_dense_integral_int : forall chk t (l : list (int t)) g,
  (len l + 1 <= n_max_len (int_num chk t))%N -> is_degree (dcoef Z_ring ival l) g ->
  of_cont (int_num chk t) (degree1 g) <> None ->
  exists r, dense_integral (int_num chk t) l = Ok r /\ dcoef Z_ring ival r 0%nat = 0%Z /\
    forall d, dcoef Z_ring ival r (S d) = Z.quot (dcoef Z_ring ival l d) (Z.of_nat (S d)).
Proof.
  intros chk t l g Hv Hg Hn. rewrite (degree1_strip _ _ _ (checked_lawful t) l g Hg) in Hn.
  apply dense_integral_int; [|exact Hn].
  pose proof (len_strip (int_num chk t) l). lia.
Qed.

Lemma Qc_char0 : char0 Qc_ring.
Proof.
  intros n H. rewrite Qc_of_nat_ring in H. cbn [r0 Qc_ring] in H.
  assert (E : (inject_Z (Z.of_nat (S n)) == 0)%Q).
  { rewrite <- (Qred_correct (inject_Z (Z.of_nat (S n)))).
    change (Qred (inject_Z (Z.of_nat (S n)))) with (this (Q2Qc (inject_Z (Z.of_nat (S n))))). rewrite H. reflexivity. }
  unfold Qeq in E. simpl in E. lia.
Qed.

Example C14_case :
  rmap (map ival) (dense_integral (int_num true I32) (i32s [0; 6; -7; 5]%Z)) = Ok [2; -3; 5; 0]%Z
  /\ exists r, dense_integral Qc_num (map (fun z => Q2Qc (inject_Z z)) [6; -7; 5]%Z) = Ok r
       /\ map this r = [2; (-7) # 2; 5; 0]%Q.
Proof. split; [vm_compute; reflexivity|]. eexists. split; [vm_compute; reflexivity|]. vm_compute. reflexivity. Qed.

(** ** C15 *)

(** [pshift left k p]: multiplication by x^k resp. division by x^k, a negative amount
    shifting the other way (DenseShift.v).  [fuel] >= 2 covers the single change of
    direction. *)
Theorem C15_dense_shift : forall T (O : num T) R den, lawful O R den -> forall fuel (left : bool) p k r,
  i32_shift k -> dense_shift O (S (S fuel)) left p k = Ok r \/ dense_shift_assign O (S (S fuel)) left p k = Ok r ->
  peq (dcoef R den r) (pshift left k (dcoef R den p)).
Proof.
  intros T O R den L fuel left p k r Hk [H|H].
  - eapply dense_shift_coef; eassumption.
  - eapply dense_shift_assign_coef; eassumption.
Qed.

Theorem C15_dense_shift_assign_returns : forall T (O : num T) fuel (left : bool) p k,
  i32_shift k -> (len p + Z.to_N (if left then k else - k) <= n_max_len O)%N ->
  exists r, dense_shift_assign O (S (S fuel)) left p k = Ok r.
Proof. exact @dense_shift_assign_returns. Qed.

(** Shifting left then right gives the polynomial back (in all four combinations of
    operator and assigning form). *)
Theorem C15_dense_shl_shr : forall T (O : num T) R den, lawful O R den -> forall f1 f2 p k r s,
  i32_shift k -> (0 <= k)%Z ->
  dense_shift O (S (S f1)) true p k = Ok r \/ dense_shift_assign O (S (S f1)) true p k = Ok r ->
  dense_shift O (S (S f2)) false r k = Ok s \/ dense_shift_assign O (S (S f2)) false r k = Ok s ->
  peq (dcoef R den s) (dcoef R den p).
Proof.
  intros T O R den L f1 f2 p k r s Hk Hp H1 H2.
  apply (C15_dense_shift _ _ _ _ L) in H1; [|exact Hk]. apply (C15_dense_shift _ _ _ _ L) in H2; [|exact Hk].
  intros d. rewrite H2. unfold pshift in *. destruct (Z.leb_spec 0 (- k)) as [Hz|Hz].
  - assert (k = 0)%Z as -> by lia. simpl in *. unfold pshl. simpl. rewrite Nat.sub_0_r, H1.
    unfold pshl. simpl. rewrite Nat.sub_0_r. reflexivity.
  - rewrite Z.opp_involutive. unfold pshr. rewrite H1. destruct (Z.leb_spec 0 k); [|lia]. unfold pshl.
    destruct (Nat.ltb_spec (d + Z.to_nat k) (Z.to_nat k)); [lia|]. f_equal. lia.
Qed.

Example C15_case :
  rmap (map ival) (dense_shift (int_num true I32) 2 true (i32s [0; 1; 2]%Z) 2) = Ok [1; 2; 0; 0]%Z
  /\ rmap (map ival) (dense_shift (int_num true I32) 2 true (i32s [1; 2; 3]%Z) (-2)) = Ok [1]%Z
  /\ rmap (map ival) (dense_shift_assign (int_num true I32) 2 false (i32s [0; 1; 2; 3]%Z) 1) = Ok [0; 1; 2]%Z.
Proof. repeat split; vm_compute; reflexivity. Qed.

(** ** C16: refuted for [>>], true for [>>=] *)

Lemma shr_fine {T} (O : num T) p n : trimmed O p -> shr_ok O p n.
Proof. intros H. apply shr_ok_trimmed, trimmed_is_strip, H. Qed.

(** [>>] returns exactly when everything or at least the leading zeros survive the shift;
    in particular for every polynomial without leading zeros. *)
Theorem C16_dense_shr_characterisation : forall T (O : num T) fuel p k, i32_shift k -> (0 <= k)%Z ->
  ((exists r, dense_shift O (S (S fuel)) false p k = Ok r) <->
   ((len p < Z.to_N k)%N \/
    exists pre q, p = pre ++ q /\ Forall (fun c => is_zero O c = true) pre /\ trimmed O q /\
      (len pre + Z.to_N k <= len p)%N)).
Proof.
  intros T O fuel p k Hk Hp. rewrite (dense_shift_right_returns O fuel p k Hk Hp). unfold shr_ok.
  destruct (strip_split O p) as (pre & H1 & H2 & H3 & _). split; intros [H|H]; auto; right.
  - exists pre, (strip O p). repeat split; auto; [apply trimmed_strip|]. unfold len in *. lia.
  - destruct H as (pre' & q & E & Z' & Tq & Hl).
    assert (Hf : fnz O p = length pre').
    { subst p. clear -Z' Tq. induction Z' as [|x pre' Hx Z' IH]; simpl.
      - destruct q as [|c q]; simpl; [reflexivity|]. unfold trimmed in Tq. rewrite Tq. reflexivity.
      - rewrite Hx, IH. reflexivity. }
    rewrite Hf. exact Hl.
Qed.

Theorem C16_dense_shr_trimmed_partial : forall T (O : num T) fuel p k,
  i32_shift k -> (0 <= k)%Z -> trimmed O p -> exists r, dense_shift O (S (S fuel)) false p k = Ok r.
Proof.
  intros T O fuel p k Hk Hp Ht. apply dense_shift_right_returns; auto. apply shr_fine, Ht.
Qed.

Theorem C16_dense_shr_refuted : forall chk t, exists (p : list (int t)) k,
  i32_shift k /\ (0 <= k)%Z /\
  (forall fuel r, dense_shift (int_num chk t) fuel false p k <> Ok r) /\
  (exists r, dense_shift_assign (int_num chk t) 2 false p k = Ok r).
Proof.
  intros chk t. exists [mk_int t 0; mk_int t 0; mk_int t 1], 2%Z.
  assert (Hk : i32_shift 2) by (unfold i32_shift, I32_MIN, I32_MAX; lia).
  split; [exact Hk|]. split; [lia|]. split.
  - intros [|fuel] r; [discriminate|]. cbn [dense_shift]. destruct (Z.ltb_spec 2 0); [lia|].
    change (first_nonzero_index (int_num chk t) [mk_int t 0; mk_int t 0; mk_int t 1])
      with (fnz_rem (int_num chk t) [mk_int t 0; mk_int t 0; mk_int t 1] 0).
    rewrite fnz_rem_spec. cbn [fnz]. destruct t; vm_compute; discriminate.
  - apply dense_shift_assign_returns; [exact Hk|]. destruct t; vm_compute; discriminate.
Qed.

Example C16_case : dense_shift (int_num true I32) 2 false (i32s [0; 0; 1]%Z) 2 = Panic PIndex
  /\ rmap (map ival) (dense_shift_assign (int_num true I32) 2 false (i32s [0; 0; 1]%Z) 2) = Ok [0]%Z.
Proof. split; vm_compute; reflexivity. Qed.

(** ** C17: refuted *)

(** With overflow checks: a panic; without: endless mutual recursion. *)
Theorem C17_dense_shift_min : forall T (O : num T) fuel (left : bool) p,
  (n_chk O = true -> dense_shift O (S fuel) left p I32_MIN = Panic POverflow /\
                     dense_shift_assign O (S fuel) left p I32_MIN = Panic POverflow) /\
  (n_chk O = false -> dense_shift O fuel left p I32_MIN = Fuel /\ dense_shift_assign O fuel left p I32_MIN = Fuel).
Proof.
  intros. split; intros H.
  - apply dense_shift_min_checked, H.
  - apply dense_shift_min_unchecked, H.
Qed.

Theorem C17_shift_min_refuted : forall chk t (p : list (int t)), exists k,
  (I32_MIN <= k <= I32_MAX)%Z /\ forall fuel left r,
    dense_shift (int_num chk t) fuel left p k <> Ok r /\ dense_shift_assign (int_num chk t) fuel left p k <> Ok r.
Proof.
  intros chk t p. exists I32_MIN. split; [unfold I32_MIN, I32_MAX; lia|]. intros fuel left r.
  destruct (C17_dense_shift_min _ (int_num chk t) fuel left p) as [_ H2].
  destruct chk.
  - destruct fuel as [|fuel]; [split; discriminate|].
    destruct (C17_dense_shift_min _ (int_num true t) fuel left p) as [H1 _].
    destruct (H1 eq_refl) as [E1 E2]. rewrite E1, E2. split; discriminate.
  - destruct (H2 eq_refl) as [E1 E2]. rewrite E1, E2. split; discriminate.
Qed.

(** Every other amount is fine (see C15 for what is returned). *)
Theorem C17_shift_other_partial : forall T (O : num T) fuel (left : bool) p k, i32_shift k -> trimmed O p ->
  (len p + Z.to_N (if left then k else - k) <= n_max_len O)%N ->
  exists r, dense_shift O (S (S fuel)) left p k = Ok r.
Proof.
  intros T O fuel left p k Hk Ht Hc.
  assert (Hs : strip O p = p) by (apply trimmed_is_strip, Ht).
  destruct (Z.ltb_spec k 0).
  - rewrite dense_shift_neg by assumption. destruct left; cbn [negb].
    + apply shift_nonneg_right; [lia|]. apply shr_fine, Ht.
    + apply shift_nonneg_left; [lia|]. rewrite Hs. exact Hc.
  - destruct left.
    + apply dense_shift_left_returns; auto. rewrite Hs. exact Hc.
    + apply C16_dense_shr_trimmed_partial; auto.
Qed.

(** ** C18 *)

(** [euclid p d q r]: p = q*d + r, d non-zero and r of smaller degree (DenseDiv.v). *)
Theorem C18_dense_div_mod : forall T (O : num T) R den, lawful O R den -> nice_div O -> forall fuel p d q r,
  vec_ok O p -> dense_div_mod O fuel p d = Ok (q, r) ->
  euclid (dcoef R den p) (dcoef R den d) (dcoef R den q) (dcoef R den r).
Proof. exact @dense_div_mod_spec. Qed.

(** Over every built-in integer type, in either mode, and over the rationals. *)
Theorem C18_dense_div_mod_int_checked : forall t fuel (p d q r : list (int t)),
  vec_ok (int_num true t) p -> dense_div_mod (int_num true t) fuel p d = Ok (q, r) ->
  euclid (dcoef Z_ring ival p) (dcoef Z_ring ival d) (dcoef Z_ring ival q) (dcoef Z_ring ival r).
Proof.
  intros t. apply (C18_dense_div_mod _ _ _ _ (checked_lawful t)). apply trunc_nice, int_trunc_div.
Qed.

Theorem C18_dense_div_mod_int_wrapping : forall t fuel (p d q r : list (int t)),
  vec_ok (int_num false t) p -> dense_div_mod (int_num false t) fuel p d = Ok (q, r) ->
  let c := @dcoef (int t) (w_ring t) (fun a => a) in euclid (c p) (c d) (c q) (c r).
Proof.
  intros t. apply (C18_dense_div_mod _ _ _ _ (wrapping_lawful t)). apply trunc_nice, int_trunc_div.
Qed.

(** Over a domain the result is the only possible one. *)
Theorem C18_dense_div_mod_unique : forall T (O : num T) R den, lawful O R den -> nice_div O -> domain R ->
  forall fuel p d q r q' r',
  vec_ok O p -> dense_div_mod O fuel p d = Ok (q, r) ->
  pfin q' -> euclid (dcoef R den p) (dcoef R den d) q' r' ->
  peq (dcoef R den q) q' /\ peq (dcoef R den r) r'.
Proof.
  intros T O R den L N HD fuel p d q r q' r' Hv H Hf E.
  apply (euclid_unique R HD (dcoef R den p) (dcoef R den d)); auto.
  - apply dcoef_pfin.
  - eapply dense_div_mod_spec; eassumption.
Qed.

(** With exact division it returns, after at most [length p] rounds. *)
Theorem C18_dense_div_mod_field : forall T (O : num T) R den, lawful O R den -> total_ops O -> exact_div O R den ->
  forall p d fuel, vec_ok O p -> ~ peq (dcoef R den d) pzero -> (length p <= fuel)%nat ->
  exists q r, dense_div_mod O fuel p d = Ok (q, r) /\
    euclid (dcoef R den p) (dcoef R den d) (dcoef R den q) (dcoef R den r).
Proof.
  intros T O R den L HT X p d fuel Hv Hd Hf.
  destruct (dense_div_mod_total O R den L X HT fuel p d Hf Hv Hd) as (q & r & H).
  exists q, r. split; [exact H|].
  apply (dense_div_mod_spec O R den L (exact_nice O R den L X) fuel p d q r Hv H).
Qed.

Theorem C18_dense_floor_div : forall T (O : num T) fuel p d,
  dense_floor_div O fuel p d = (qr <- dense_div_mod O fuel p d ;; Ok (fst qr)).
Proof. exact @dense_floor_div_spec. Qed.

Example C18_case :
  rmap (fun qr => (map ival (fst qr), map ival (snd qr)))
    (dense_div_mod (int_num true I32) 10 (i32s [0; 2; 3; 0; 1]%Z) (i32s [0; 1; 1; 1]%Z)) = Ok ([2; 1]%Z, [-3; 0]%Z)
  /\ exists q r, dense_div_mod Qc_num 10 (map (fun z => Q2Qc (inject_Z z)) [1; 0; 1]%Z) (map (fun z => Q2Qc (inject_Z z)) [3; 1]%Z) = Ok (q, r)
      /\ map this q = [1 # 3; (-1) # 9]%Q /\ map this r = [10 # 9]%Q.
Proof.
  split; [vm_compute; reflexivity|]. do 2 eexists. split; [vm_compute; reflexivity|].
  split; vm_compute; reflexivity.
Qed.

(** ** C19: refuted *)

(** Whenever the leading coefficient of the dividend is smaller in absolute value than the
    divisor's (and the degree is not), the loop runs forever. *)
Theorem C19_dense_div_mod_diverges : forall chk t (p d : list (int t)) n m,
  vec_ok (int_num chk t) p ->
  is_degree (dcoef Z_ring ival p) (Some n) -> is_degree (dcoef Z_ring ival d) (Some m) -> (m <= n)%nat ->
  (Z.abs (dcoef Z_ring ival p n) < Z.abs (dcoef Z_ring ival d m))%Z ->
  forall fuel, dense_div_mod (int_num chk t) fuel p d = Fuel.
Proof.
  intros chk t p d n m Hv Hn Hm Hle Hlt.
  assert (A : forall l k, is_degree (dcoef Z_ring ival l) (Some k) ->
            exists c, first_term (int_num chk t) l = TTerm c (N.of_nat k) /\ ival c = dcoef Z_ring ival l k).
  { intros l k Hk. change (first_term (int_num chk t) l) with (first_term (int_num true t) l).
    pose proof (first_term_spec (int_num true t) Z_ring ival (checked_lawful t) l) as F.
    destruct (first_term (int_num true t) l) as [|c e].
    - exfalso. apply Hk, F.
    - destruct F as (F1 & F2 & F3 & _). exists c.
      assert (E : is_degree (dcoef Z_ring ival l) (Some (N.to_nat e))).
      { split; [|exact F3]. rewrite F2. apply (is_zero_false_den _ _ _ (checked_lawful t)), F1. }
      pose proof (is_degree_unique _ _ _ Hk E) as U. injection U as U. subst k.
      rewrite N2Nat.id. auto. }
  destruct (A p n Hn) as (c & F1 & G1). destruct (A d m Hm) as (b & F2 & G2).
  apply (dense_div_mod_diverges chk t p d c (N.of_nat n) b (N.of_nat m)); auto; [lia|]. rewrite G1, G2. exact Hlt.
Qed.

Theorem C19_dense_div_mod_refuted : forall chk t, exists p d : list (int t),
  ~ peq (dcoef Z_ring ival d) pzero /\ forall fuel, dense_div_mod (int_num chk t) fuel p d = Fuel.
Proof.
  intros chk t. exists [mk_int t 1; mk_int t 0], [mk_int t 2; mk_int t 0].
  assert (R : ival (mk_int t 1) = 1%Z /\ ival (mk_int t 2) = 2%Z /\ ival (mk_int t 0) = 0%Z)
    by (destruct t; vm_compute; auto). destruct R as (R1 & R2 & R3).
  assert (D : forall c, ival c <> 0%Z -> is_degree (dcoef Z_ring ival [c; mk_int t 0]) (Some 1%nat)).
  { intros c Hc. split.
    - rewrite !dcoef_cons. simpl. exact Hc.
    - intros i Hi. apply dcoef_overflow. simpl. lia. }
  split.
  - intros H. apply (proj1 (D (mk_int t 2) ltac:(lia))), H.
  - apply (C19_dense_div_mod_diverges chk t _ _ 1 1).
    + destruct t; vm_compute; discriminate.
    + apply D. lia.
    + apply D. lia.
    + lia.
    + rewrite !dcoef_cons. cbn [length Nat.eqb]. lia.
Qed.

(** What does hold over overflow-checked integers: if a quotient and remainder exist over Z
    at all, the loop ends (with that result, C18, or an overflow panic). *)
Theorem C19_dense_div_mod_terminates_partial : forall t (p d : list (int t)) q r fuel,
  (length p <= fuel)%nat -> @pfin Z_ring q -> euclid (dcoef Z_ring ival p) (dcoef Z_ring ival d) q r ->
  dense_div_mod (int_num true t) fuel p d <> Fuel.
Proof.
  intros t p d q r fuel Hf Hq E.
  apply (dense_div_mod_exists _ _ _ (checked_lawful t) Z_domain (int_finds_quot t) (int_prompt true t) fuel p d q r Hf Hq E).
Qed.

(** ** C20: refuted for [%], true for [%=] *)

Theorem C20_dense_rem_assign : forall T (O : num T) R den, lawful O R den -> nice_div O -> forall fuel p d r,
  dense_rem_assign O fuel p d = Ok r ->
  exists q, pfin q /\ euclid (dcoef R den p) (dcoef R den d) q (dcoef R den r).
Proof. exact @dense_rem_assign_spec. Qed.

Theorem C20_dense_rem_assign_field : forall T (O : num T) R den, lawful O R den -> total_ops O -> exact_div O R den ->
  forall p d fuel, ~ peq (dcoef R den d) pzero -> (length p <= fuel)%nat ->
  exists r, dense_rem_assign O fuel p d = Ok r.
Proof. intros T O R den L HT X p d fuel Hd Hf. apply (dense_rem_assign_total O R den L X HT); assumption. Qed.

(** [%] works when the dividend is smaller, *)
Theorem C20_dense_rem_small_partial : forall T (O : num T) R den, lawful O R den -> forall fuel p d m,
  is_degree (dcoef R den d) (Some m) -> (forall e, (m <= e)%nat -> dcoef R den p e = r0) ->
  dense_rem O fuel p d = Ok p.
Proof. exact @dense_rem_small. Qed.

(** and never returns otherwise, for any coefficient type. *)
Theorem C20_dense_rem_never : forall T (O : num T) R den, lawful O R den -> forall fuel p d m n r,
  is_degree (dcoef R den d) (Some m) -> is_degree (dcoef R den p) (Some n) -> (m <= n)%nat ->
  dense_rem O fuel p d <> Ok r.
Proof. exact @dense_rem_never. Qed.

(** Even over the rationals: x % x never returns, while x %= x does. *)
Theorem C20_dense_rem_refuted : exists p d : list Qc,
  (forall fuel r, dense_rem Qc_num fuel p d <> Ok r) /\
  (exists r, dense_rem_assign Qc_num 2 p d = Ok r /\ peq (dcoef Qc_ring (fun a => a) r) pzero).
Proof.
  exists [1%Qc; 0%Qc], [1%Qc; 0%Qc].
  assert (D : is_degree (@dcoef Qc Qc_ring (fun a => a) [1%Qc; 0%Qc]) (Some 1%nat)).
  { split.
    - vm_compute. discriminate.
    - intros i Hi. apply dcoef_overflow. simpl. lia. }
  split.
  - intros fuel r. apply (C20_dense_rem_never _ _ _ _ Qc_lawful fuel _ _ 1 1 r D D). lia.
  - exists [0%Qc; 0%Qc]. split; [vm_compute; reflexivity|].
    intros d. destruct d as [|[|d]]; [reflexivity|reflexivity|]. apply dcoef_overflow. simpl. lia.
Qed.

Example C20_case :
  rmap (map ival) (dense_rem_assign (int_num true I32) 10 (i32s [0; 2; 3; 0; 1]%Z) (i32s [0; 1; 1; 1]%Z)) = Ok [0; 0; 0; -3; 0]%Z.
Proof. vm_compute. reflexivity. Qed.

(** ** C21 *)

Theorem C21_dense_zero_divisor : forall T (O : num T) R den, lawful O R den -> forall fuel p d,
  peq (dcoef R den d) pzero ->
  dense_div_mod O fuel p d = Panic PZeroPoly /\ dense_floor_div O fuel p d = Panic PZeroPoly /\
  dense_rem O fuel p d = Panic PZeroPoly /\ dense_rem_assign O fuel p d = Panic PZeroPoly.
Proof.
  intros T O R den L fuel p d H.
  assert (E : dense_div_mod O fuel p d = Panic PZeroPoly) by (apply (dense_div_mod_zero_divisor O R den L), H).
  split; [exact E|]. split; [|split].
  - unfold dense_floor_div. rewrite E. reflexivity.
  - apply (dense_rem_zero_divisor O R den L), H.
  - apply (dense_rem_assign_zero_divisor O R den L), H.
Qed.

Lemma bind_no_zeropoly {A B} (m : res A) (f : A -> res B) :
  m <> Panic PZeroPoly -> (forall a, f a <> Panic PZeroPoly) -> bind m f <> Panic PZeroPoly.
Proof. destruct m; simpl; intros; congruence. Qed.

(** Conversely that panic occurs only for a zero divisor, provided the coefficient
    operations themselves do not raise it (they do not for the built-in types). *)
Definition no_zeropoly {T} (O : num T) : Prop :=
  (forall a b, mul O a b <> Panic PZeroPoly) /\ (forall a b, sub O a b <> Panic PZeroPoly) /\
  (forall a b, div O a b <> Panic PZeroPoly) /\ (forall a b, add O a b <> Panic PZeroPoly) /\
  (forall a, neg O a <> Panic PZeroPoly).

Lemma int_no_zeropoly chk t : no_zeropoly (int_num chk t).
Proof.
  repeat split; intros; simpl; try (unfold arith; destruct in_range, chk; discriminate).
  unfold idiv. destruct (_ =? _)%Z; [discriminate|]. destruct in_range; discriminate.
Qed.

Lemma Qc_no_zeropoly : no_zeropoly Qc_num.
Proof. repeat split; intros; simpl; try discriminate. destruct Qc_eqb; discriminate. Qed.

Section NoZero.
Context {T : Type} (O : num T) (Hz : no_zeropoly O).

Lemma zip_no_zeropoly (f : T -> T -> res T) : (forall x y, f x y <> Panic PZeroPoly) ->
  forall l m, zipM f l m <> Panic PZeroPoly.
Proof.
  intros Hf. induction l as [|x l IH]; intros [|y m]; simpl; try discriminate.
  apply bind_no_zeropoly; [apply Hf|]. intros. apply bind_no_zeropoly; [apply IH|]. discriminate.
Qed.

Lemma usub_no_zeropoly chk a b : usub chk a b <> Panic PZeroPoly.
Proof. unfold usub. destruct (_ <=? _)%N, chk; discriminate. Qed.
Lemma uadd_no_zeropoly chk a b : uadd chk a b <> Panic PZeroPoly.
Proof. unfold uadd. destruct (_ <=? _)%N, chk; discriminate. Qed.

Lemma vec_sub_no_zeropoly l sd rhs m s : vec_sub_w_scale O l sd rhs m s <> Panic PZeroPoly.
Proof.
  unfold vec_sub_w_scale. repeat (apply bind_no_zeropoly; [apply usub_no_zeropoly|intros]).
  destruct ((_ <=? _)%N && _); [|discriminate].
  apply bind_no_zeropoly; [unfold slice_from; destruct (_ <=? _)%nat; discriminate|intros].
  apply bind_no_zeropoly; [unfold slice_from; destruct (_ <=? _)%nat; discriminate|intros].
  apply bind_no_zeropoly; [|discriminate]. apply zip_no_zeropoly. intros x y.
  apply bind_no_zeropoly; intros; apply Hz.
Qed.

Lemma update_no_zeropoly (l : list T) i y : update l i (fun _ => Ok y) <> Panic PZeroPoly.
Proof.
  unfold update. destruct (_ <? _)%N eqn:E; [|discriminate]. generalize (N.to_nat i) as n. clear E. 
  induction l as [|x l IH]; intros [|n]; simpl; try discriminate.
  apply bind_no_zeropoly; [apply IH|discriminate].
Qed.

Lemma new_no_zeropoly (l : list T) : dense_new O l <> Panic PZeroPoly.
Proof. rewrite dense_new_ok. discriminate. Qed.

Lemma div_loop_no_zeropoly fuel : forall rhs b m offset c sd rem dv,
  div_loop O fuel rhs b m offset c sd rem dv <> Panic PZeroPoly.
Proof.
  induction fuel as [|f IH]; intros; simpl; [discriminate|]. destruct (_ <=? _)%N; [|discriminate].
  apply bind_no_zeropoly; [apply Hz|intros]. apply bind_no_zeropoly; [apply vec_sub_no_zeropoly|intros].
  apply bind_no_zeropoly; [apply usub_no_zeropoly|intros]. apply bind_no_zeropoly; [apply update_no_zeropoly|intros].
  destruct (first_term O _); [discriminate|]. apply IH.
Qed.

Lemma rem_loop_no_zeropoly fuel : forall p rhs b m s sd rem, rem_loop O fuel p rhs b m s sd rem <> Panic PZeroPoly.
Proof.
  induction fuel as [|f IH]; intros; simpl; [discriminate|]. destruct (_ <=? _)%N; [|discriminate].
  apply bind_no_zeropoly; [apply vec_sub_no_zeropoly|intros].
  destruct (first_term O _); [discriminate|]. apply bind_no_zeropoly; [apply Hz|intros]. apply IH.
Qed.

Lemma rem_assign_loop_no_zeropoly fuel : forall rhs b m s sd p, rem_assign_loop O fuel rhs b m s sd p <> Panic PZeroPoly.
Proof.
  induction fuel as [|f IH]; intros; simpl; [discriminate|]. destruct (_ <=? _)%N; [|discriminate].
  apply bind_no_zeropoly; [apply vec_sub_no_zeropoly|intros].
  destruct (first_term O _); [discriminate|]. apply bind_no_zeropoly; [apply Hz|intros]. apply IH.
Qed.
End NoZero.

Theorem C21_dense_only_zero_divisor : forall T (O : num T) R den, lawful O R den -> no_zeropoly O -> forall fuel p d,
  ~ peq (dcoef R den d) pzero ->
  dense_div_mod O fuel p d <> Panic PZeroPoly /\ dense_floor_div O fuel p d <> Panic PZeroPoly /\
  dense_rem O fuel p d <> Panic PZeroPoly /\ dense_rem_assign O fuel p d <> Panic PZeroPoly.
Proof.
  intros T O R den L Hz fuel p d Hd.
  assert (F : exists b m, first_term O d = TTerm b m).
  { destruct (first_term O d) as [|b m] eqn:E; [|eauto]. exfalso. apply Hd. apply (first_term_zero O R den L), E. }
  destruct F as (b & m & F).
  assert (D : dense_div_mod O fuel p d <> Panic PZeroPoly).
  { unfold dense_div_mod. rewrite F. destruct (first_term O p) as [|c n]; [discriminate|].
    destruct (_ <? _)%N; [discriminate|].
    apply bind_no_zeropoly; [apply usub_no_zeropoly|intros]. apply bind_no_zeropoly; [apply uadd_no_zeropoly|intros].
    apply bind_no_zeropoly; [unfold vec_repeat; destruct (_ <=? _)%N; discriminate|intros].
    apply bind_no_zeropoly; [apply div_loop_no_zeropoly, Hz|]. intros [dv r].
    apply bind_no_zeropoly; [apply new_no_zeropoly|intros]. apply bind_no_zeropoly; [apply new_no_zeropoly|discriminate]. }
  split; [exact D|]. split; [|split].
  - unfold dense_floor_div. apply bind_no_zeropoly; [exact D|discriminate].
  - unfold dense_rem. rewrite F. destruct (first_term O p) as [|c n]; [discriminate|].
    destruct (_ <? _)%N; [discriminate|]. apply bind_no_zeropoly; [apply Hz|intros].
    apply bind_no_zeropoly; [apply rem_loop_no_zeropoly, Hz|intros]. apply new_no_zeropoly.
  - unfold dense_rem_assign. rewrite F. destruct (first_term O p) as [|c n]; [discriminate|].
    destruct (_ <? _)%N; [discriminate|]. apply bind_no_zeropoly; [apply Hz|intros].
    apply rem_assign_loop_no_zeropoly, Hz.
Qed.

Example C21_case : dense_div_mod (int_num true I32) 5 (i32s [1; 2]%Z) (i32s [0; 0]%Z) = Panic PZeroPoly.
Proof. vm_compute. reflexivity. Qed.

(** ** C56: refuted *)

(** Documented: panics only if the type cannot represent the numbers 0 to the degree. *)
Theorem C56_derivative_panics_early_refuted : exists l : list (int I8),
  vec_ok (int_num true I8) l /\ is_degree (dcoef Z_ring ival l) (Some 127%nat) /\
  (forall k, (k <= 127)%N -> of_cont (int_num true I8) k <> None) /\
  (forall chk, dense_derivative (int_num chk I8) l = Panic PExpect).
Proof.
  exists (mk_int I8 1 :: repeat (mk_int I8 0) 127). split; [vm_compute; discriminate|]. split; [|split].
  - split.
    + rewrite dcoef_cons, repeat_length. vm_compute. discriminate.
    + intros i Hi. apply dcoef_overflow. simpl length. lia.
  - intros k Hk. change (iof_usize I8 k <> None). unfold iof_usize. cbn [signed bits].
    change (64 <? 8)%Z with false. cbn iota.
    destruct (Z.ltb_spec (imax I8) (Z.of_N k)) as [H|H]; [|discriminate].
    unfold imax in H. simpl in H. lia.
  - intros chk. apply dense_derivative_expect. destruct chk; vm_compute; reflexivity.
Qed.

(** It does return whenever [degree + 1] is representable too (C13), so the contract is
    missed by exactly one degree. *)
Theorem C56_derivative_partial : forall t (l : list (int t)) n,
  vec_ok (int_num false t) l -> is_degree (dcoef Z_ring ival l) (Some n) ->
  (forall k, (k <= N.of_nat n + 1)%N -> of_cont (int_num false t) k <> None) ->
  exists r, dense_derivative (int_num false t) l = Ok r.
Proof.
  intros t l n Hv Hn Hk.
  assert (E : len (strip (int_num false t) l) = N.of_nat (S n)).
  { pose proof (degree1_strip (int_num true t) Z_ring ival (checked_lawful t) l _ Hn) as E. exact (eq_sym E). }
  apply (dense_derivative_total (int_num false t) (wrapping_total t)). rewrite E. apply Hk. lia.
Qed.
