(** Properties C12-C15, C17, C21, C22, C51 and C52 of sparse polynomials. *)

From Coq Require Import List NArith ZArith Lia Bool Arith QArith Qcanon Sorted.
From Coq Require Import ZifyBool ZifyNat ZifyN.
From Verif Require Import Base Num Spec SpecFacts Laws Terms Dense.
From Verif Require Import DenseFacts DenseCalc DenseCalcInt DenseShift DenseDiv Wrap.
From Verif Require Import Sparse SparseFacts SparseArith SparseCalc SparseDiv.
From Verif Require Import P_Dense1 P_Dense2 P_Sparse1.
Import ListNotations.
Local Close Scope Qc_scope.
Local Close Scope Q_scope.

Ltac swf_lit := unfold swf, key_lt; split; repeat constructor; simpl; unfold USIZE_MAX; lia.

(** ** C12 *)

(** For degrees below 2^32 (see C51 for the others). *)
Theorem C12_sparse_eval : forall T (O : num T) R den, lawful O R den -> forall m x r,
  Forall (fun kv => (fst kv < 2 ^ 32)%N) m -> sparse_eval O m x = Ok r -> is_value (scoef R den m) (den x) (den r).
Proof. exact @sparse_eval_value. Qed.

Lemma ipow_wrapping_total t (b : int t) e : exists r, ipow false t b e = Ok r.
Proof.
  unfold ipow. destruct e as [|p]; [eauto|]. generalize (mk_int t 1) as acc. revert b.
  induction p as [p IH|p IH|]; intros b acc; cbn [ipow_loop]; rewrite ?arith_unchecked; cbn [bind]; eauto.
Qed.

Theorem C12_sparse_eval_int_wrapping : forall t (m : bmap (int t)) x v,
  Forall (fun kv => (fst kv < 2 ^ 32)%N) m -> @is_value Z_ring (scoef Z_ring ival m) (ival x) v ->
  exists r, sparse_eval (int_num false t) m x = Ok r /\ ival r = wrap t v.
Proof.
  intros t m x v Hk Hv. destruct (sparse_eval_total (int_num false t) (wrapping_total t)) with (m := m) (x := x) as (r & Hr).
  { intros a e. apply ipow_wrapping_total. }
  exists r. split; [exact Hr|]. apply (C12_sparse_eval _ _ _ _ (wrapping_lawful t)) in Hr; [|exact Hk].
  apply (wred_value t) in Hv. rewrite mk_int_ival in Hv.
  assert (E : r = mk_int t v).
  { refine (is_value_fun _ _ _ _ Hr _). eapply is_value_ext; [|exact Hv]. apply peq_sym, scoef_wred. }
  rewrite E. reflexivity.
Qed.

(** Dense and sparse evaluation agree on equal polynomials. *)
Theorem C12_dense_sparse_eval_agree : forall T (O : num T) R den, lawful O R den -> forall m l x a b,
  Forall (fun kv => (fst kv < 2 ^ 32)%N) m -> peq (scoef R den m) (dcoef R den l) ->
  sparse_eval O m x = Ok a -> dense_eval O l x = Ok b -> a = b.
Proof.
  intros T O R den L m l x a b Hk E Ha Hb. apply (lw_inj _ _ _ L).
  apply (C12_sparse_eval _ _ _ _ L) in Ha; [|exact Hk]. apply (C12_dense_eval _ _ _ _ L) in Hb.
  refine (is_value_fun _ _ _ _ Ha _). eapply is_value_ext; [apply peq_sym, E|exact Hb].
Qed.

Example C12_sparse_case : rmap ival (sparse_eval (int_num true I32) (smap I32 [(0%N, 7%Z); (10%N, 3%Z)]) (mk_int I32 (-2))) = Ok 3079%Z.
Proof. vm_compute. reflexivity. Qed.

(** ** C51: refuted *)

(** With the built-in integers the exponent is taken modulo 2^32. *)
Theorem C51_sparse_eval_truncates : forall t (m : bmap (int t)) x r, sparse_eval (int_num true t) m x = Ok r ->
  @is_value Z_ring (terms_coef (map (fun kv => (ival (snd kv) : car Z_ring, fst kv mod 2 ^ 32)%N) m)) (ival x) (ival r).
Proof.
  intros t m x r H.
  pose (m' := map (fun kv => (fst kv mod 2 ^ 32, snd kv)%N) m).
  assert (E : sparse_eval (int_num true t) m' x = Ok r).
  { rewrite <- H. unfold sparse_eval, m'. clear H. generalize (zero (int_num true t)) as s.
    induction m as [|[k v] m IH]; intros s; [reflexivity|]. cbn [map foldM fst snd]. cbn [upow int_num]. unfold iupow.
    rewrite N.mod_mod by lia. destruct (ipow true t x (k mod 2 ^ 32)) as [w|w|]; cbn [bind]; [|reflexivity|reflexivity].
    destruct (mul (int_num true t) v w) as [p|p|]; cbn [bind]; [|reflexivity|reflexivity].
    destruct (add (int_num true t) s p) as [s'|s'|]; cbn [bind]; [|reflexivity|reflexivity].
    apply IH. }
  apply (C12_sparse_eval _ _ _ _ (checked_lawful t)) in E.
  - unfold scoef, sentries, m' in E. rewrite map_map in E. exact E.
  - apply Forall_forall. intros kv I. apply in_map_iff in I. destruct I as (kv' & <- & _). cbn [fst]. apply N.mod_lt. lia.
Qed.

(** x^(2^32) at 0 is 1. *)
Theorem C51_sparse_eval_refuted : forall chk t, exists (m : bmap (int t)) x r,
  swf m /\ sparse_eval (int_num chk t) m x = Ok r /\ ival r = 1%Z /\ @is_value Z_ring (scoef Z_ring ival m) (ival x) 0%Z.
Proof.
  intros chk t. exists [(2 ^ 32, mk_int t 1)%N], (mk_int t 0), (mk_int t 1).
  assert (Z0 : ival (mk_int t 0) = 0%Z /\ ival (mk_int t 1) = 1%Z) by (destruct t; vm_compute; auto). destruct Z0 as [Z0 Z1].
  split; [swf_lit|]. split; [|split; [exact Z1|]].
  - destruct chk, t; vm_compute; reflexivity.
  - rewrite Z0. eapply is_value_ext; [apply peq_sym, scoef_cons|].
    assert (E : @radd Z_ring (@rmul Z_ring (ival (mk_int t 1)) (@rpow Z_ring 0%Z (N.to_nat (2 ^ 32)))) 0%Z = 0%Z)
      by (rewrite Z_rpow_ring, Z.pow_0_l by lia; rewrite Z1; reflexivity).
    pattern 0%Z at 2. rewrite <- E.
    apply (@is_value_padd Z_ring); [apply (@is_value_pmono Z_ring)|]. apply (@is_value_zero Z_ring). intros d. apply scoef_nil.
Qed.

(** ** C13 *)

Theorem C13_sparse_derivative : forall T (O : num T) R den, lawful O R den -> forall m r, swf m ->
  sparse_derivative O m = Ok r -> swf r /\ peq (scoef R den r) (pderiv (scoef R den m)).
Proof. exact @sparse_derivative_spec. Qed.

(** It returns iff the degree of every non-constant term and every coefficient of the
    derivative are representable. *)
Theorem C13_sparse_derivative_returns : forall T (O : num T) R den fits, lawful O R den -> fits_ops O R den fits ->
  forall m, swf m ->
  (exists r, sparse_derivative O m = Ok r) <->
  forall d, scoef R den m (S d) <> r0 ->
    exists n, of_exact O (N.of_nat (S d)) = Some n /\ fits (rmul (of_nat (S d)) (scoef R den m (S d))).
Proof. intros T O R den fits L F. exact (sparse_derivative_returns O R den L fits F). Qed.

Example C13_sparse_case :
  rmap sread (sparse_derivative (int_num true I32) (smap I32 [(0%N, 7%Z); (1%N, 4%Z); (2%N, 0%Z); (10%N, 3%Z)])) = Ok [(0%N, 4%Z); (9%N, 30%Z)].
Proof. vm_compute. reflexivity. Qed.

(** ** C14 *)

Theorem C14_sparse_integral_exact : forall T (O : num T) R den, lawful O R den -> exact_div O R den -> char0 R ->
  forall m r, swf m -> (n_chk O = true \/ Forall (fun kv => (fst kv < USIZE_MAX)%N) m) -> sparse_integral O m = Ok r ->
  scoef R den r 0%nat = r0 /\ peq (pderiv (scoef R den r)) (scoef R den m).
Proof. exact @sparse_integral_exact. Qed.

(** Integers, both modes: truncated division. *)
Theorem C14_sparse_integral_int : forall chk t (m : bmap (int t)), swf m ->
  Forall (fun kv => (fst kv < USIZE_MAX)%N /\ of_exact (int_num chk t) (fst kv + 1) <> None) m ->
  exists r, sparse_integral (int_num chk t) m = Ok r /\ swf r /\ scoef Z_ring ival r 0%nat = 0%Z /\
    forall d, scoef Z_ring ival r (S d) = Z.quot (scoef Z_ring ival m d) (Z.of_nat (S d)).
Proof.
  intros chk t m Hm Hk.
  assert (H1 : Forall (fun kv => (fst kv < USIZE_MAX)%N) m) by (eapply Forall_impl; [|exact Hk]; intros kv [A _]; exact A).
  assert (E : sparse_integral (int_num chk t) m = sparse_integral (int_num true t) m).
  { unfold sparse_integral. apply foldM_ext. intros s kv I. rewrite Forall_forall in H1. specialize (H1 kv I).
    rewrite !uadd_small by lia. reflexivity. }
  rewrite E. destruct (sparse_integral_returns (int_num true t) Z_ring ival (checked_lawful t) m Hm H1) as (r & Hr).
  { apply Forall_forall. intros kv I. rewrite Forall_forall in Hk. destruct (Hk kv I) as [A B].
    change (of_exact (int_num true t)) with (of_exact (int_num chk t)).
    destruct (of_exact (int_num chk t) (fst kv + 1)) as [n|] eqn:En; [|congruence].
    exists n, (mk_int t (Z.quot (ival (snd kv)) (ival n))). split; [reflexivity|].
    apply iof_usize_spec in En; [|lia].
    assert (R : in_range t (Z.quot (ival (snd kv)) (ival n)) = true) by (apply quot_pos_in_range; lia).
    apply (int_div_ok true t). split; [lia|]. split; [exact R|]. apply ival_mk_int, R. }
  exists r. split; [exact Hr|].
  destruct (sparse_integral_spec (int_num true t) Z_ring ival (checked_lawful t) m r Hm (or_introl eq_refl) Hr) as (W & Z0 & HS).
  split; [exact W|]. split; [exact Z0|]. intros d. specialize (HS d). rewrite (scoef_get Z_ring ival m d (proj1 Hm)).
  destruct (m_get (N.of_nat d) m) as [c|].
  - destruct HS as (n & q & En & Ed & ->). apply (int_div_ok true t) in Ed. destruct Ed as (_ & _ & ->).
    rewrite En, Z_of_nat_ring. reflexivity.
  - rewrite HS. cbn [r0 Z_ring]. rewrite Z.quot_0_l by lia. reflexivity.
Qed.

Example C14_sparse_case :
  rmap sread (sparse_integral (int_num true I32) (smap I32 [(0%N, 7%Z); (3%N, 9%Z)])) = Ok [(1%N, 7%Z); (4%N, 2%Z)].
Proof. vm_compute. reflexivity. Qed.

(** ** C15 *)

(** [<<], [>>] and their assigning forms.  Without overflow checks on usize, degrees must
    stay within usize (see C52). *)
Theorem C15_sparse_shift : forall T (O : num T) R den, lawful O R den -> forall fuel (left : bool) m k r, swf m -> i32_shift k ->
  (n_chk O = true \/ Forall (fun kv => (fst kv + Z.to_N (if left then k else - k)%Z <= USIZE_MAX)%N) m) ->
  sparse_shift O (S (S fuel)) left m k = Ok r -> swf r /\ peq (scoef R den r) (pshift left k (scoef R den m)).
Proof. intros T O R den _. exact (sparse_shift_spec O R den). Qed.

Theorem C15_sparse_shift_returns : forall T (O : num T) fuel (left : bool) m k, swf m -> i32_shift k ->
  Forall (fun kv => (fst kv + Z.to_N (if left then k else - k)%Z <= USIZE_MAX)%N) m ->
  exists r, sparse_shift O (S (S fuel)) left m k = Ok r.
Proof. exact @sparse_shift_returns. Qed.

Example C15_sparse_case :
  rmap sread (sparse_shift (int_num true I32) 2 true (smap I32 [(0%N, 7%Z); (3%N, 9%Z)]) 2) = Ok [(2%N, 7%Z); (5%N, 9%Z)]
  /\ rmap sread (sparse_shift (int_num true I32) 2 false (smap I32 [(0%N, 7%Z); (3%N, 9%Z)]) 2) = Ok [(1%N, 9%Z)]
  /\ rmap sread (sparse_shift (int_num true I32) 2 true (smap I32 [(0%N, 7%Z); (3%N, 9%Z)]) (-3)) = Ok [(0%N, 9%Z)].
Proof. repeat split; vm_compute; reflexivity. Qed.

(** ** C17 *)

Theorem C17_sparse_shift_min : forall T (O : num T) fuel (left : bool) m,
  (n_chk O = true -> sparse_shift O (S fuel) left m I32_MIN = Panic POverflow) /\
  (n_chk O = false -> sparse_shift O fuel left m I32_MIN = Fuel).
Proof.
  intros. split; intros H; [apply sparse_shift_min_checked, H|apply sparse_shift_min_unchecked, H].
Qed.

(** ** C21 *)

Theorem C21_sparse_zero_divisor : forall T (O : num T) R den, lawful O R den -> forall fuel p d, swf d ->
  peq (scoef R den d) pzero -> sparse_div_mod O fuel p d = Panic PZeroPoly /\ sparse_rem O fuel p d = Panic PZeroPoly.
Proof. exact @sparse_zero_divisor. Qed.

Section NoZero.
Context {T : Type} (O : num T) (Hz : no_zeropoly O).

Lemma sub_scale_no_zeropoly s rhs : forall lhs, map_sub_w_scale O lhs rhs s <> Panic PZeroPoly.
Proof.
  unfold map_sub_w_scale. induction rhs as [|kv rhs IH]; intros lhs; cbn [foldM]; [discriminate|].
  apply bind_no_zeropoly; [|intros; apply IH]. unfold m_upsert.
  destruct (m_get (fst kv) lhs); repeat (apply bind_no_zeropoly; [try apply Hz|intros]); try apply Hz; try discriminate.
  all: repeat (apply bind_no_zeropoly; [apply Hz|intros]); apply Hz.
Qed.

Lemma add_term_no_zeropoly m c d : sparse_add_term O m c d <> Panic PZeroPoly.
Proof.
  unfold sparse_add_term, m_upsert. destruct (is_zero O c); [discriminate|].
  destruct (m_get d m); apply bind_no_zeropoly; try discriminate; apply Hz.
Qed.

Lemma sparse_loops_no_zeropoly fuel rhs b m off : forall s d rem dv,
  sparse_rem_loop O fuel rhs b m s d rem <> Panic PZeroPoly /\ sparse_div_loop O fuel rhs b m off s d rem dv <> Panic PZeroPoly.
Proof.
  induction fuel as [|fuel IH]; intros s d rem dv; [split; discriminate|]. cbn [sparse_rem_loop sparse_div_loop].
  destruct (m <=? d)%N; [|split; discriminate]. split.
  - apply bind_no_zeropoly; [apply sub_scale_no_zeropoly|intros a]. destruct (sparse_first_term O a); [discriminate|].
    apply bind_no_zeropoly; [apply Hz|intros; apply (IH _ _ _ dv)].
  - apply bind_no_zeropoly; [apply sub_scale_no_zeropoly|intros a]. apply bind_no_zeropoly; [apply add_term_no_zeropoly|intros].
    destruct (sparse_first_term O a); [discriminate|]. apply bind_no_zeropoly; [apply Hz|intros; apply IH].
Qed.
End NoZero.

Theorem C21_sparse_only_zero_divisor : forall T (O : num T) R den, lawful O R den -> no_zeropoly O -> forall fuel p d, swf d ->
  ~ peq (scoef R den d) pzero -> sparse_div_mod O fuel p d <> Panic PZeroPoly /\ sparse_rem O fuel p d <> Panic PZeroPoly.
Proof.
  intros T O R den L Hz fuel p d Hd Hn. unfold sparse_div_mod, sparse_rem.
  destruct (sparse_first_term O d) as [|b m] eqn:E; [exfalso; apply Hn, (sparse_first_term_zero O R den L d (proj1 Hd)), E|].
  destruct (sparse_first_term O p) as [|c n]; [split; discriminate|]. destruct (n <? m)%N; [split; discriminate|].
  split; (apply bind_no_zeropoly; [apply Hz|intros]).
  - apply bind_no_zeropoly; [apply usub_no_zeropoly|intros]. apply sparse_loops_no_zeropoly, Hz.
  - refine (proj1 (sparse_loops_no_zeropoly O Hz _ _ _ _ 0%N _ _ _ [])).
Qed.

(** ** C22: refuted *)

(** What is returned is right, and something is returned only if the degree of the dividend
    does not exceed that of the divisor. *)
Theorem C22_sparse_div_mod_partial : forall T (O : num T) R den, lawful O R den -> nice_div O -> forall fuel p d q r,
  swf p -> swf d -> sparse_div_mod O fuel p d = Ok (q, r) ->
  euclid (scoef R den p) (scoef R den d) (scoef R den q) (scoef R den r) /\
  forall n, is_degree (scoef R den d) (Some n) -> forall e, (n < e)%nat -> scoef R den p e = r0.
Proof.
  intros T O R den L ND fuel p d q r Hp Hd H.
  destruct (sparse_div_mod_spec O R den L ND fuel p d q r Hp Hd H) as (_ & _ & A & B). auto.
Qed.

Theorem C22_sparse_rem_partial : forall T (O : num T) R den, lawful O R den -> nice_div O -> forall fuel p d r,
  swf p -> swf d -> sparse_rem O fuel p d = Ok r ->
  (exists q, pfin q /\ euclid (scoef R den p) (scoef R den d) q (scoef R den r)) /\
  forall n, is_degree (scoef R den d) (Some n) -> forall e, (n < e)%nat -> scoef R den p e = r0.
Proof.
  intros T O R den L ND fuel p d r Hp Hd H.
  destruct (sparse_rem_spec O R den L ND fuel p d r Hp Hd H) as (_ & A & B). auto.
Qed.

(** With exact division: returns iff deg p <= deg d, otherwise runs for ever. *)
Theorem C22_sparse_div_mod_returns_iff : forall T (O : num T) R den, lawful O R den -> total_ops O -> exact_div O R den ->
  forall p d n, swf p -> swf d -> is_degree (scoef R den d) (Some n) ->
  ((forall e, (n < e)%nat -> scoef R den p e = r0) ->
     forall fuel, (exists qr, sparse_div_mod O (S (S fuel)) p d = Ok qr) /\ (exists r, sparse_rem O (S (S fuel)) p d = Ok r)) /\
  (forall k, (n < k)%nat -> is_degree (scoef R den p) (Some k) ->
     forall fuel, sparse_div_mod O fuel p d = Fuel /\ sparse_rem O fuel p d = Fuel).
Proof.
  intros T O R den L HT X p d n Hp Hd Hn. split.
  - intros H fuel. apply (sparse_div_mod_returns O R den L HT X fuel p d n); assumption.
  - intros k Hk Hdeg fuel. destruct (sparse_runs_forever O R den L HT X p d k n Hp Hd Hdeg Hn Hk fuel). auto.
Qed.

(** Never, for any coefficient type, when deg p > deg d. *)
Theorem C22_sparse_never : forall T (O : num T) R den, lawful O R den -> forall fuel p d n k, swf p -> swf d ->
  is_degree (scoef R den p) (Some n) -> is_degree (scoef R den d) (Some k) -> (k < n)%nat ->
  (forall qr, sparse_div_mod O fuel p d <> Ok qr) /\ (forall r, sparse_rem O fuel p d <> Ok r).
Proof.
  intros T O R den L fuel p d n k Hp Hd Hn Hk Hlt. destruct (sparse_never O R den L fuel p d n k Hp Hd Hn Hk Hlt). auto.
Qed.

Lemma single_degree {T} (O : num T) R den (L : lawful O R den) k c : is_zero O c = false ->
  is_degree (scoef R den [(k, c)]) (Some (N.to_nat k)).
Proof.
  intros Hc. pose proof (sparse_degree_spec O R den L [(k, c)] ltac:(repeat constructor)) as H.
  unfold sparse_degree in H. cbn [deg_loop] in H. rewrite Hc in H. exact H.
Qed.

(** Even x^2 / x over the rationals. *)
Theorem C22_sparse_div_mod_refuted : exists p d : bmap Qc, swf p /\ swf d /\
  ~ peq (scoef Qc_ring (fun a => a) d) pzero /\
  forall fuel, sparse_div_mod Qc_num fuel p d = Fuel /\ sparse_rem Qc_num fuel p d = Fuel.
Proof.
  exists [(2%N, 1%Qc)], [(1%N, 1%Qc)]. split; [swf_lit|]. split; [swf_lit|].
  pose proof (single_degree _ _ _ Qc_lawful 1 1%Qc eq_refl) as D1.
  pose proof (single_degree _ _ _ Qc_lawful 2 1%Qc eq_refl) as D2. split.
  - intros H. apply (proj1 D1), H.
  - apply (C22_sparse_div_mod_returns_iff _ _ _ _ Qc_lawful Qc_total Qc_exact_div [(2%N, 1%Qc)] [(1%N, 1%Qc)] 1) with (k := 2%nat);
      try assumption; try swf_lit; lia.
Qed.

Example C22_case :
  rmap (fun qr => (sread (fst qr), sread (snd qr)))
    (sparse_div_mod (int_num true I32) 5 (smap I32 [(0%N, 3%Z); (2%N, 6%Z)]) (smap I32 [(1%N, 1%Z); (2%N, 2%Z)]))
  = Ok ([(0%N, 3%Z)], [(0%N, 3%Z); (1%N, (-3)%Z); (2%N, 0%Z)]).
Proof. vm_compute. reflexivity. Qed.

(** ** C52: refuted without overflow checks *)

Lemma foldM_reaches {A S} (f : S -> A -> res S) l : forall s r e, foldM f s l = Ok r -> In e l -> exists s' r', f s' e = Ok r'.
Proof.
  induction l as [|x l IH]; intros s r e H I; [destruct I|]. simpl in H. inv_ok. destruct I as [->|I]; [eauto|].
  eapply IH; eassumption.
Qed.

(** With checks a degree overflow of two stored terms always panics. *)
Theorem C52_sparse_checked : forall T (O : num T), n_chk O = true -> forall a b j x k y,
  In (j, x) a -> In (k, y) b -> is_zero O y = false -> (USIZE_MAX < j + k)%N -> forall r, sparse_mul O a b <> Ok r.
Proof.
  intros T O HC a b j x k y Ia Ib Hy Hk r H. unfold sparse_mul in H.
  destruct (foldM_reaches _ _ _ _ _ H Ib) as (s' & r' & E). cbn [snd fst] in E. rewrite Hy in E. unfold map_mul_row in E.
  destruct (foldM_reaches _ _ _ _ _ E Ia) as (s'' & r'' & E'). cbn [snd fst] in E'. inv_ok.
  unfold uadd in E0. rewrite HC in E0. destruct (N.leb_spec (k + j) USIZE_MAX); [lia|discriminate].
Qed.

Theorem C52_sparse_shift_checked : forall T (O : num T), n_chk O = true -> forall fuel m k x n,
  (0 <= n)%Z -> In (k, x) m -> (USIZE_MAX < k + Z.to_N n)%N -> forall r, sparse_shift O (S fuel) true m n <> Ok r.
Proof.
  intros T O HC fuel m k x n Hn I Hk r H. cbn [sparse_shift] in H. destruct (Z.ltb_spec n 0); [lia|].
  destruct (foldM_reaches _ _ _ _ _ H I) as (s' & r' & E). cbn [snd fst] in E. inv_ok.
  unfold uadd in E0. rewrite HC in E0. destruct (N.leb_spec (k + Z.to_N n) USIZE_MAX); [lia|discriminate].
Qed.

(** Without them x^(2^63) squared is 1, and x^usize::MAX shifted left by one is 1. *)
Theorem C52_sparse_wraps_refuted : forall t,
  (exists (a r : bmap (int t)), swf a /\ sparse_mul (int_num false t) a a = Ok r /\
     ~ peq (scoef Z_ring ival r) (pmul (scoef Z_ring ival a) (scoef Z_ring ival a))) /\
  (exists (a r : bmap (int t)), swf a /\ sparse_shift (int_num false t) 2 true a 1 = Ok r /\
     ~ peq (scoef Z_ring ival r) (pshift true 1 (scoef Z_ring ival a))).
Proof.
  intros t.
  assert (Z1 : ival (mk_int t 1) = 1%Z) by (destruct t; vm_compute; auto).
  assert (C0 : scoef Z_ring ival [(0%N, mk_int t 1)] 0%nat = 1%Z).
  { rewrite scoef_cons. unfold padd, pmono. simpl Nat.eqb. cbn iota. rewrite scoef_nil, Z1. reflexivity. }
  split.
  - exists [((2 ^ 63)%N, mk_int t 1)], [(0%N, mk_int t 1)]. split; [swf_lit|]. split; [destruct t; vm_compute; reflexivity|].
    intros H. specialize (H 0%nat). rewrite C0 in H. unfold pmul in H. cbn [sumn] in H.
    rewrite (scoef_notin Z_ring ival [((2 ^ 63)%N, mk_int t 1)]) in H.
    + cbn [rmul radd r0 Z_ring] in H. lia.
    + simpl. lia.
  - exists [(USIZE_MAX, mk_int t 1)], [(0%N, mk_int t 1)]. split; [swf_lit|]. split; [destruct t; vm_compute; reflexivity|].
    intros H. specialize (H 0%nat). rewrite C0 in H. unfold pshift, pshl in H. simpl in H. lia.
Qed.
