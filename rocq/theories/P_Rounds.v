(** Properties C15 and C18, continued: shifting there and back for sparse polynomials and monomials,
    and the number of rounds a division takes. *)

From Coq Require Import List NArith ZArith Lia Bool Arith QArith Qcanon.
From Coq Require Import ZifyBool ZifyNat ZifyN.
From Verif Require Import Base Num Spec SpecFacts Laws Terms Dense Sparse Mono.
From Verif Require Import DenseFacts DenseArith DenseMul DenseCalc DenseCalcInt DenseShift DenseDiv DenseDivInt.
From Verif Require Import SparseFacts SparseCalc FixedFacts Wrap P_Dense1 P_Dense2 P_Sparse1 P_Sparse2 P_Fixed2.
Import ListNotations.

Local Close Scope Qc_scope.
Local Close Scope Q_scope.

(** ** C15 *)

Theorem C15_sparse_shl_shr : forall T (O : num T) R den, lawful O R den -> forall f1 f2 m k, swf m -> i32_shift k -> (0 <= k)%Z ->
  Forall (fun kv => (fst kv + Z.to_N k <= USIZE_MAX)%N) m ->
  exists r s, sparse_shift O (S (S f1)) true m k = Ok r /\ sparse_shift O (S (S f2)) false r k = Ok s /\
    peq (scoef R den s) (scoef R den m).
Proof.
  intros T O R den L f1 f2 m k Hm Hk Hp Hf.
  destruct (C15_sparse_shift_returns T O f1 true m k Hm Hk Hf) as (r & E1).
  destruct (C15_sparse_shift T O R den L f1 true m k r Hm Hk (or_intror Hf) E1) as [Hr C1].
  assert (Hb : Forall (fun kv => (fst kv + Z.to_N (- k) <= USIZE_MAX)%N) r).
  { replace (Z.to_N (- k)) with 0%N by lia. destruct Hr as [_ Hr]. rewrite Forall_forall in *. intros kv Hi. specialize (Hr kv Hi). lia. }
  destruct (C15_sparse_shift_returns T O f2 false r k Hr Hk Hb) as (s & E2).
  destruct (C15_sparse_shift T O R den L f2 false r k s Hr Hk (or_intror Hb) E2) as [_ C2].
  exists r, s. split; [exact E1|]. split; [exact E2|]. intros d. rewrite (C2 d). unfold pshift in *.
  destruct (Z.leb_spec 0 (- k)) as [Hz|Hz].
  - assert (k = 0)%Z as -> by lia. cbn in *. unfold pshl in *. cbn in *. rewrite Nat.sub_0_r, (C1 d), Nat.sub_0_r. reflexivity.
  - rewrite Z.opp_involutive. unfold pshr. rewrite (C1 _). destruct (Z.leb_spec 0 k); [|lia]. unfold pshl.
    destruct (Nat.ltb_spec (d + Z.to_nat k) (Z.to_nat k)); [lia|]. f_equal. lia.
Qed.

Theorem C15_mono_shl_shr : forall T (O : num T) f1 f2 m k, i32_shift k -> (0 <= k)%Z -> (mdeg m + Z.to_N k <= USIZE_MAX)%N ->
  exists r, mono_shift O (S (S f1)) true m k = Ok r /\ mono_shift O (S (S f2)) false r k = Ok m.
Proof.
  intros T O f1 f2 [c d] k Hk Hp Hd. cbn [mdeg] in Hd. cbn [mono_shift mdeg mcoef]. destruct (Z.ltb_spec k 0); [lia|].
  rewrite uadd_small by exact Hd. cbn [bind]. eexists. split; [reflexivity|]. cbn [mdeg mcoef].
  destruct (N.ltb_spec (d + Z.to_N k) (Z.to_N k)); [lia|]. rewrite usub_le by lia. cbn [bind]. repeat f_equal. lia.
Qed.

(** ** C18 *)

Section Rounds.
Context {T : Type} (O : num T) (R : comring) (den : T -> car R) (L : lawful O R den).

Lemma div_loop_rounds rhs b m (Hrhs : first_term O rhs = TTerm b m) (X : exact_div O R den) (HT : total_ops O) offset fuel : forall rem c sd dv,
  first_term O rem = TTerm c sd -> (1 <= fuel)%nat -> (sd + 2 <= N.of_nat fuel + m)%N -> (sd <= offset)%N -> (m <= offset)%N ->
  length dv = S (N.to_nat (offset - m)) ->
  exists r, div_loop O fuel rhs b m offset c sd rem dv = Ok r.
Proof.
  induction fuel as [|fuel IH]; intros rem c sd dv Hf Hf1 Hfu Hso Hmo Hlen; [lia|].
  cbn [div_loop]. destruct (N.leb_spec m sd) as [Hm|Hm]; [|eauto].
  pose proof (b_nonzero O rhs b m Hrhs) as Hb.
  destruct (X c b Hb) as (s & Hs & He). rewrite Hs. cbn [bind].
  destruct (vec_sub_total O rhs b m Hrhs HT rem c sd s Hf) as (rem' & Hv). rewrite Hv. cbn [bind].
  rewrite usub_le by lia. cbn [bind].
  destruct (update_returns dv (offset - sd) s) as (dv' & Hu); [unfold len; lia|].
  rewrite Hu. cbn [bind]. apply (update_coef R den) in Hu.
  destruct (vec_sub_spec O R den L _ _ _ _ _ _ _ _ Hf Hrhs Hm Hv) as ((z & p & q & pre & Hp & Hz & -> & Hpre & Hq) & _ & _).
  assert (Zz : is_zero O z = true).
  { apply (lw_is_zero _ _ _ L). eapply (trunc_or_exact O R den L); try eassumption. }
  pose proof (first_term_spec O R den L (pre ++ z :: q)) as Hft.
  destruct (first_term O (pre ++ z :: q)) as [|c' sd'] eqn:Ef; [eauto|].
  assert (sd' < sd)%N.
  { destruct Hft as (Hc0 & Hc1 & _ & _).
    destruct (N.lt_ge_cases sd' sd) as [|Hge]; [lia|exfalso].
    apply (is_zero_false_den O R den L) in Hc0. apply Hc0. rewrite <- Hc1.
    rewrite (dcoef_zeros O R den L) by exact Hpre. rewrite dcoef_cons. unfold len in Hq.
    destruct (Nat.eqb_spec (N.to_nat sd') (length q)); [apply (is_zero_den O R den L), Zz|].
    apply dcoef_overflow. lia. }
  apply IH; auto; lia.
Qed.

Lemma degree_first l n : is_degree (dcoef R den l) (Some n) -> exists c, first_term O l = TTerm c (N.of_nat n).
Proof.
  intros H. pose proof (first_term_spec O R den L l) as F. destruct (first_term O l) as [|c e].
  - exfalso. apply H, F.
  - destruct F as (F1 & F2 & F3 & _). exists c. f_equal.
    assert (E : is_degree (dcoef R den l) (Some (N.to_nat e))).
    { split; [|exact F3]. rewrite F2. apply (is_zero_false_den O R den L), F1. }
    pose proof (is_degree_unique _ _ _ H E) as K. injection K. lia.
Qed.
End Rounds.

(** With exact division, a dividend of degree n and a divisor of degree m: n - m + 1 rounds, so the loop
    condition is looked at no more than n - m + 2 times. *)
Theorem C18_dense_div_mod_rounds : forall T (O : num T) R den, lawful O R den -> total_ops O -> exact_div O R den ->
  forall p d n m fuel, vec_ok O p -> is_degree (dcoef R den p) (Some n) -> is_degree (dcoef R den d) (Some m) -> (n - m + 2 <= fuel)%nat ->
  exists q r, dense_div_mod O fuel p d = Ok (q, r) /\
    euclid (dcoef R den p) (dcoef R den d) (dcoef R den q) (dcoef R den r).
Proof.
  intros T O R den L HT X p d n m fuel Hv Hn Hm Hf.
  assert (G : exists q r, dense_div_mod O fuel p d = Ok (q, r)).
  { destruct (degree_first O R den L p n Hn) as (c & Ec). destruct (degree_first O R den L d m Hm) as (b & Eb).
    unfold dense_div_mod. rewrite Eb, Ec. destruct (N.ltb_spec (N.of_nat n) (N.of_nat m)) as [Hlt|Hge]; [eauto|].
    pose proof (first_term_spec O R den L p) as Hs. rewrite Ec in Hs. destruct Hs as (_ & _ & _ & Hs).
    unfold vec_ok, len in *. pose proof (lw_cap _ _ _ L).
    rewrite usub_le by lia. cbn [bind]. rewrite uadd_small by (unfold USIZE_MAX; lia). cbn [bind].
    unfold vec_repeat. destruct (N.leb_spec (N.of_nat n - N.of_nat m + 1) (n_max_len O)); [|lia]. cbn [bind].
    destruct (div_loop_rounds O R den L d b (N.of_nat m) Eb X HT (N.of_nat n) fuel p c (N.of_nat n) (repeat (zero O) (N.to_nat (N.of_nat n - N.of_nat m + 1))))
      as ([q r] & ->); auto; try lia.
    { rewrite repeat_length. lia. }
    cbn [bind]. rewrite !dense_new_ok. cbn [bind]. eauto. }
  destruct G as (q & r & G). exists q, r. split; [exact G|]. apply (dense_div_mod_spec O R den L (exact_nice O R den L X) fuel p d q r Hv G).
Qed.

(** x^3 + 1 by 2x - 1 over the rationals: three rounds; the condition is looked at four times. *)
Example C18_rounds_case : let q z := Q2Qc (inject_Z z) in
  (exists x y, dense_div_mod Qc_num 4 (map q [1; 0; 0; 1]%Z) (map q [2; -1]%Z) = Ok (x, y)) /\
  dense_div_mod Qc_num 3 (map q [1; 0; 0; 1]%Z) (map q [2; -1]%Z) = Fuel.
Proof. split; [do 2 eexists|]; vm_compute; reflexivity. Qed.

Example C15_shl_shr_case :
  rmap sread (r <- sparse_shift (int_num true I32) 2 true (smap I32 [(0%N, 7%Z); (3%N, 9%Z)]) 5 ;; sparse_shift (int_num true I32) 2 false r 5)
  = Ok [(0%N, 7%Z); (3%N, 9%Z)].
Proof. vm_compute. reflexivity. Qed.

Print Assumptions C15_sparse_shl_shr.
Print Assumptions C15_mono_shl_shr.
Print Assumptions C18_dense_div_mod_rounds.
