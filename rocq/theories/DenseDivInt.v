(** Dense division over the built-in integers: non-termination. *)

From Coq Require Import List NArith ZArith Lia Bool Arith.
From Coq Require Import ZifyBool ZifyNat ZifyN.
From Verif Require Import Base Num Spec SpecFacts Laws Terms Dense DenseFacts DenseArith DenseMul DenseDiv.
Import ListNotations.

Section Ints.
Variable chk : bool.
Variable t : ity.
Notation O := (int_num chk t).

Lemma ival_zero_int : ival (zero O) = 0%Z.
Proof. apply ival_mk_int, in_range_iff. pose proof (imin_max t). lia. Qed.

Lemma sub_step_zero s l r : is_zero O s = true -> sub_step O s l r = Ok l.
Proof.
  intros Hs. assert (E : ival s = 0%Z) by (simpl in Hs; lia). unfold sub_step. simpl. rewrite E, Z.mul_0_r.
  pose proof (imin_max t). rewrite arith_in_range by (apply in_range_iff; lia). cbn [bind].
  rewrite ival_mk_int by (apply in_range_iff; lia). rewrite Z.sub_0_r.
  rewrite arith_in_range by apply ival_ok. rewrite mk_int_ival. reflexivity.
Qed.

Lemma zip_step_zero s l r : is_zero O s = true -> zipM (sub_step O s) l r = Ok l.
Proof.
  intros Hs. revert r. induction l as [|x l IH]; intros [|y r]; simpl; try reflexivity.
  rewrite sub_step_zero by exact Hs. cbn [bind]. rewrite IH. reflexivity.
Qed.

Lemma vec_sub_same rem c sd rhs b m s : first_term O rem = TTerm c sd -> first_term O rhs = TTerm b m ->
  is_zero O s = true -> vec_sub_w_scale O rem sd rhs m s = Ok rem.
Proof.
  intros H1 H2 Hs. rewrite (vec_sub_unfold O _ c sd _ b m s H1 H2), zip_step_zero by exact Hs. simpl. f_equal.
  apply firstn_skipn.
Qed.

(** Once the leading coefficient is smaller than the divisor's, the loop never ends. *)
Lemma div_loop_diverges rhs b m (Hrhs : first_term O rhs = TTerm b m) offset rem c sd z :
  first_term O rem = TTerm c sd -> (m <= sd)%N -> (sd <= offset)%N ->
  div O c b = Ok z -> is_zero O z = true ->
  forall fuel dv, (offset - sd < len dv)%N -> div_loop O fuel rhs b m offset c sd rem dv = Fuel.
Proof.
  intros H1 Hm Ho Hd Hz fuel. induction fuel as [|f IH]; intros dv Hl; [reflexivity|].
  cbn [div_loop]. destruct (N.leb_spec m sd); [|lia]. rewrite Hd. cbn [bind].
  rewrite (vec_sub_same _ c sd _ b m z H1 Hrhs Hz). cbn [bind]. rewrite usub_le by exact Ho. cbn [bind].
  destruct (update_returns dv (offset - sd)%N z Hl) as (dv' & Hu). rewrite Hu. cbn [bind]. rewrite H1.
  apply IH. destruct (update_coef Z_ring (@ival t) dv _ z dv' Hu) as [Hl' _]. unfold len in *. lia.
Qed.

Lemma quot_small_zero (c b : int t) : (Z.abs (ival c) < Z.abs (ival b))%Z ->
  exists z, div O c b = Ok z /\ is_zero O z = true.
Proof.
  intros H. simpl. unfold idiv. destruct (Z.eqb_spec (ival b) 0); [lia|].
  assert (E : Z.quot (ival c) (ival b) = 0%Z) by (apply Z.quot_small_iff; lia). rewrite E.
  pose proof (imin_max t). assert (R0 : in_range t 0 = true) by (apply in_range_iff; lia).
  rewrite R0. eexists. split; [reflexivity|]. rewrite ival_mk_int by exact R0. reflexivity.
Qed.

Lemma dense_div_mod_diverges p rhs c n b m : vec_ok O p ->
  first_term O p = TTerm c n -> first_term O rhs = TTerm b m -> (m <= n)%N ->
  (Z.abs (ival c) < Z.abs (ival b))%Z ->
  forall fuel, dense_div_mod O fuel p rhs = Fuel.
Proof.
  intros Hv H1 H2 Hm Hlt fuel. unfold dense_div_mod. rewrite H1, H2.
  destruct (N.ltb_spec n m); [lia|]. rewrite usub_le by exact Hm. cbn [bind].
  assert (Hn : (n < len p)%N).
  { destruct (first_term_TTerm O p c n H1) as (q & Hq & Hl & _).
    pose proof (len_strip O p). rewrite Hq in *. unfold len in *. simpl length in *. lia. }
  assert (Hc : (n_max_len O <= 2 ^ 63 - 1)%N).
  { destruct chk; [apply (lw_cap _ _ _ (checked_lawful t))|apply (lw_cap _ _ _ (wrapping_lawful t))]. }
  unfold vec_ok in Hv.
  rewrite uadd_small by (unfold USIZE_MAX; lia). cbn [bind].
  unfold vec_repeat. destruct (N.leb_spec (n - m + 1) (n_max_len O)); [|lia]. cbn [bind].
  destruct (quot_small_zero c b Hlt) as (z & Hd & Hz).
  rewrite (div_loop_diverges rhs b m H2 n p c n z H1 Hm (N.le_refl _) Hd Hz); [reflexivity|].
  unfold len. rewrite repeat_length. lia.
Qed.

End Ints.
