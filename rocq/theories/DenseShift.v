(** Dense shifts. *)

From Coq Require Import List NArith ZArith Lia Bool Ring Arith.
From Coq Require Import ZifyBool ZifyNat ZifyN.
From Verif Require Import Base Num Spec SpecFacts Laws Terms Dense DenseFacts DenseArith.
Import ListNotations.

(** Shift by [k] (left if [left], else right), negative amounts in the other direction. *)
Definition pshift {R : comring} (left : bool) (k : Z) (p : poly R) : poly R :=
  let s := if left then k else (- k)%Z in
  if (0 <=? s)%Z then pshl p (Z.to_nat s) else pshr p (Z.to_nat (- s)).

Definition i32_shift (k : Z) : Prop := (I32_MIN < k <= I32_MAX)%Z.

Section DenseShift.
Context {T : Type} (O : num T) (R : comring) (den : T -> car R) (L : lawful O R den).
Notation dc := (dcoef R den).

Lemma dcoef_shl l n d : dc (l ++ repeat (zero O) n) d = pshl (dc l) n d.
Proof.
  rewrite dcoef_app, repeat_length. unfold pshl. destruct (Nat.ltb_spec d n); [|reflexivity].
  apply (dcoef_all_zero O R den L), (all_zero_repeat O R den L).
Qed.

Lemma dcoef_firstn l n : (n <= length l)%nat -> peq (dc (firstn (length l - n) l)) (pshr (dc l) n).
Proof.
  intros H d. unfold pshr.
  transitivity (dc (firstn (length l - n) l ++ skipn (length l - n) l) (d + n));
    [|rewrite firstn_skipn; reflexivity].
  rewrite dcoef_app, skipn_length.
  destruct (Nat.ltb_spec (d + n) (length l - (length l - n))); [lia|]. f_equal. lia.
Qed.

Lemma extend_zeros_ok l n r : extend_zeros O l n = Ok r ->
  r = l ++ repeat (zero O) (N.to_nat n) /\ (len l + n <= n_max_len O)%N.
Proof.
  unfold extend_zeros, vec_grow, vec_repeat. intros H. inv_ok.
  destruct (N.leb_spec n (n_max_len O)); [|discriminate].
  destruct (N.leb_spec (len l + n) (n_max_len O)); [|discriminate]. inv_ok. auto.
Qed.

Lemma extend_zeros_returns l n : (len l + n <= n_max_len O)%N ->
  extend_zeros O l n = Ok (l ++ repeat (zero O) (N.to_nat n)).
Proof.
  intros H. unfold extend_zeros, vec_grow, vec_repeat.
  destruct (N.leb_spec n (n_max_len O)); [|lia]. cbn [bind].
  destruct (N.leb_spec (len l + n) (n_max_len O)); [reflexivity|lia].
Qed.

Lemma pshr_all l n : (length l <= n)%nat -> peq (@pzero R) (pshr (dc l) n).
Proof. intros H d. unfold pshr. rewrite dcoef_overflow by lia. reflexivity. Qed.

(** non-negative amounts *)
Lemma shift_assign_nonneg f left p k r : (0 <= k)%Z -> dense_shift_assign O (S f) left p k = Ok r ->
  peq (dc r) (pshift left k (dc p)).
Proof.
  intros Hk H. cbn [dense_shift_assign] in H. destruct (Z.ltb_spec k 0); [lia|].
  unfold pshift. destruct left.
  - apply extend_zeros_ok in H. destruct H as [-> _]. intros d. rewrite dcoef_shl.
    destruct (Z.leb_spec 0 k); [|lia]. rewrite Z_N_nat. reflexivity.
  - assert (E : peq (dc r) (pshr (dc p) (Z.to_nat k))).
    { destruct (N.ltb_spec (len p) (Z.to_N k)) as [Hl|Hl].
      - inv_ok. eapply peq_trans; [|apply pshr_all]; [intros d; apply dcoef_nil|unfold len in Hl; lia].
      - unfold slice in H. simpl Nat.leb in H. cbn [andb] in H.
        destruct (Nat.leb_spec (length p - N.to_nat (Z.to_N k)) (length p)); [|lia]. inv_ok.
        rewrite Nat.sub_0_r. simpl skipn. rewrite Z_N_nat. apply dcoef_firstn. unfold len in Hl. lia. }
    eapply peq_trans; [exact E|]. destruct (Z.leb_spec 0 (- k)).
    + assert (k = 0)%Z by lia. subst k. intros d. unfold pshr, pshl. simpl.
      rewrite Nat.add_0_r, Nat.sub_0_r. reflexivity.
    + intros d. replace (- - k)%Z with k by lia. reflexivity.
Qed.

Lemma shift_nonneg f left p k r : (0 <= k)%Z -> dense_shift O (S f) left p k = Ok r ->
  peq (dc r) (pshift left k (dc p)).
Proof.
  intros Hk H. cbn [dense_shift] in H. destruct (Z.ltb_spec k 0); [lia|].
  unfold pshift. destruct left.
  - rewrite slice_from_strip in H. cbn [bind] in H.
    apply extend_zeros_ok in H. destruct H as [-> _]. intros d. rewrite dcoef_shl.
    destruct (Z.leb_spec 0 k); [|lia]. rewrite Z_N_nat. unfold pshl.
    destruct (Nat.ltb d (Z.to_nat k)); [reflexivity|]. apply (strip_coef O R den L).
  - assert (E : peq (dc r) (pshr (dc p) (Z.to_nat k))).
    { destruct (N.ltb_spec (len p) (Z.to_N k)) as [Hl|Hl].
      - inv_ok. eapply peq_trans; [|apply pshr_all]; [intros d; apply dcoef_nil|unfold len in Hl; lia].
      - unfold slice in H. rewrite first_nonzero_index_fnz in H.
        destruct (Nat.leb_spec (fnz O p) (length p - N.to_nat (Z.to_N k))) as [Hf|Hf]; [|discriminate].
        destruct (Nat.leb_spec (length p - N.to_nat (Z.to_N k)) (length p)); [|lia]. cbn [andb] in H. inv_ok.
        rewrite Z_N_nat. rewrite Z_N_nat in Hf. unfold len in Hl.
        eapply peq_trans; [|apply dcoef_firstn; lia].
        destruct (strip_split O p) as (pre & E & Hp & Hz & _).
        set (m := (length p - Z.to_nat k)%nat) in *. clearbody m.
        assert (Es : skipn (fnz O p) p = strip O p) by reflexivity. rewrite Es.
        assert (Ep : firstn m p = pre ++ firstn (m - fnz O p) (strip O p)).
        { rewrite E at 1. rewrite firstn_app, Hp. rewrite firstn_all2 by lia. reflexivity. }
        rewrite Ep. apply peq_sym, (dcoef_zeros O R den L), Hz. }
    eapply peq_trans; [exact E|]. destruct (Z.leb_spec 0 (- k)).
    + assert (k = 0)%Z by lia. subst k. intros d. unfold pshr, pshl. simpl.
      rewrite Nat.add_0_r, Nat.sub_0_r. reflexivity.
    + intros d. replace (- - k)%Z with k by lia. reflexivity.
Qed.

Lemma pshift_neg (p : poly R) left k : peq (pshift (negb left) (- k) p) (pshift left k p).
Proof.
  intros d. unfold pshift. destruct left; simpl negb; cbv iota; [|reflexivity].
  replace (- - k)%Z with k by lia. reflexivity.
Qed.

Lemma neg_i32_ok k : i32_shift k -> neg_i32 (n_chk O) k = Ok (- k)%Z.
Proof. unfold i32_shift, neg_i32. intros H. destruct (Z.eqb_spec k I32_MIN); [lia|reflexivity]. Qed.

Lemma dense_shift_coef f left p k r : i32_shift k -> dense_shift O (S (S f)) left p k = Ok r ->
  peq (dc r) (pshift left k (dc p)).
Proof.
  intros Hk H. destruct (Z.ltb_spec k 0) as [Hn|Hn]; [|eapply shift_nonneg; eassumption].
  assert (E : (k <? 0)%Z = true) by lia. remember (S f) as f'. cbn [dense_shift] in H. rewrite E in H.
  rewrite neg_i32_ok in H by exact Hk. cbn [bind] in H. subst f'.
  apply shift_nonneg in H; [|lia]. eapply peq_trans; [exact H|apply pshift_neg].
Qed.

Lemma dense_shift_assign_coef f left p k r : i32_shift k -> dense_shift_assign O (S (S f)) left p k = Ok r ->
  peq (dc r) (pshift left k (dc p)).
Proof.
  intros Hk H. destruct (Z.ltb_spec k 0) as [Hn|Hn]; [|eapply shift_assign_nonneg; eassumption].
  assert (E : (k <? 0)%Z = true) by lia. remember (S f) as f'. cbn [dense_shift_assign] in H. rewrite E in H.
  rewrite neg_i32_ok in H by exact Hk. cbn [bind] in H. subst f'.
  apply shift_assign_nonneg in H; [|lia]. eapply peq_trans; [exact H|apply pshift_neg].
Qed.

(** ** when the shifts return *)

(** Elements a shift by [k] adds to the vector. *)
Definition shift_growth (left : bool) (k : Z) : N := Z.to_N (if left then k else - k).

Lemma shift_assign_nonneg_returns f left p k : (0 <= k)%Z -> (len p + shift_growth left k <= n_max_len O)%N ->
  exists r, dense_shift_assign O (S f) left p k = Ok r.
Proof.
  intros Hk Hc. cbn [dense_shift_assign]. destruct (Z.ltb_spec k 0); [lia|].
  unfold shift_growth in Hc. destruct left.
  - rewrite extend_zeros_returns by exact Hc. eauto.
  - destruct (N.ltb_spec (len p) (Z.to_N k)); [eauto|].
    unfold slice. simpl Nat.leb. cbn [andb].
    destruct (Nat.leb_spec (length p - N.to_nat (Z.to_N k)) (length p)); [eauto|lia].
Qed.

(** [>>=], [<<=] return for every amount but [i32::MIN]. *)
Lemma dense_shift_assign_returns f left p k : i32_shift k ->
  (len p + shift_growth left k <= n_max_len O)%N ->
  exists r, dense_shift_assign O (S (S f)) left p k = Ok r.
Proof.
  intros Hk Hc. destruct (Z.ltb_spec k 0) as [Hn|Hn]; [|apply shift_assign_nonneg_returns; assumption].
  assert (E : (k <? 0)%Z = true) by lia. remember (S f) as f'. cbn [dense_shift_assign]. rewrite E.
  rewrite neg_i32_ok by exact Hk. cbn [bind]. subst f'.
  apply shift_assign_nonneg_returns; [lia|]. unfold shift_growth in *. destruct left; simpl negb; cbv iota; lia.
Qed.

(** Number of leading zeros [>>] tolerates for a right shift by [n]. *)
Definition shr_ok (p : list T) (n : N) : Prop := (len p < n)%N \/ (N.of_nat (fnz O p) + n <= len p)%N.

Lemma shift_nonneg_right f p k : (0 <= k)%Z ->
  (exists r, dense_shift O (S f) false p k = Ok r) <-> shr_ok p (Z.to_N k).
Proof.
  intros Hk. cbn [dense_shift]. destruct (Z.ltb_spec k 0); [lia|]. unfold shr_ok, slice, len.
  rewrite first_nonzero_index_fnz.
  destruct (N.ltb_spec (N.of_nat (length p)) (Z.to_N k)); [split; eauto|].
  destruct (Nat.leb_spec (fnz O p) (length p - N.to_nat (Z.to_N k)));
    destruct (Nat.leb_spec (length p - N.to_nat (Z.to_N k)) (length p)); simpl; split; intros; eauto; try lia.
  destruct H3; discriminate.
Qed.

Lemma shift_nonneg_left f p k : (0 <= k)%Z -> (len (strip O p) + Z.to_N k <= n_max_len O)%N ->
  exists r, dense_shift O (S f) true p k = Ok r.
Proof.
  intros Hk Hc. cbn [dense_shift]. destruct (Z.ltb_spec k 0); [lia|].
  rewrite slice_from_strip. cbn [bind]. rewrite extend_zeros_returns by exact Hc. eauto.
Qed.

Lemma dense_shift_neg f left p k : i32_shift k -> (k < 0)%Z ->
  dense_shift O (S f) left p k = dense_shift O f (negb left) p (- k).
Proof.
  intros Hk Hn. assert (E : (k <? 0)%Z = true) by lia. cbn [dense_shift]. rewrite E.
  rewrite neg_i32_ok by exact Hk. reflexivity.
Qed.

(** A right shift (by [>>] with a positive or [<<] with a negative amount) returns exactly
    when the leading zeros do not reach past the cut. *)
Lemma dense_shift_right_returns f p k : i32_shift k -> (0 <= k)%Z ->
  ((exists r, dense_shift O (S (S f)) false p k = Ok r) <-> shr_ok p (Z.to_N k)).
Proof. intros Hk Hn. apply shift_nonneg_right, Hn. Qed.

Lemma dense_shift_left_returns f p k : i32_shift k -> (0 <= k)%Z ->
  (len (strip O p) + Z.to_N k <= n_max_len O)%N -> exists r, dense_shift O (S (S f)) true p k = Ok r.
Proof. intros _ Hn Hc. apply shift_nonneg_left; assumption. Qed.

(** Polynomials without leading zeros. *)
Lemma shr_ok_trimmed p n : strip O p = p -> shr_ok p n.
Proof.
  intros H. unfold shr_ok, len. assert (fnz O p = 0 \/ p = [])%nat as [->| ->].
  { unfold strip in H. pose proof (f_equal (@length T) H) as Hl. rewrite skipn_length in Hl.
    pose proof (fnz_le O p). destruct p; [auto|]. left. simpl length in *. lia. }
  - lia.
  - simpl. lia.
Qed.

(** ** [i32::MIN] *)

Lemma dense_shift_min_checked f left p : n_chk O = true ->
  dense_shift O (S f) left p I32_MIN = Panic POverflow /\
  dense_shift_assign O (S f) left p I32_MIN = Panic POverflow.
Proof. intros H. cbn [dense_shift dense_shift_assign]. unfold neg_i32. rewrite H. split; reflexivity. Qed.

Lemma dense_shift_min_unchecked f : n_chk O = false -> forall left p,
  dense_shift O f left p I32_MIN = Fuel /\ dense_shift_assign O f left p I32_MIN = Fuel.
Proof.
  intros H. induction f as [|f IH]; intros left p; [split; reflexivity|].
  cbn [dense_shift dense_shift_assign]. unfold neg_i32. rewrite H.
  change (I32_MIN <? 0)%Z with true. change (I32_MIN =? I32_MIN)%Z with true. cbn [bind]. apply IH.
Qed.

End DenseShift.
