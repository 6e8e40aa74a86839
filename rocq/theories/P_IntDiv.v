(** Property C11 for the built-in integers: dividing a polynomial by a scalar divides every
    coefficient with truncation toward zero, in debug and in release builds, for every
    representation that has the operator.

    The coefficients are read as mathematical integers; [Z.quot] is the quotient that is
    truncated toward zero, characterised by [C11_int_quotient_meaning]. *)

From Coq Require Import List NArith ZArith Lia Bool Arith Sorted.
From Coq Require Import ZifyBool ZifyNat ZifyN.
From Verif Require Import Base Num Spec SpecFacts Laws Terms Dense.
From Verif Require Import DenseFacts DenseArith DenseCalc DenseCalcInt.
From Verif Require Import Sparse SparseFacts SparseArith Mono Bino Trino ArrPoly FixedFacts P_Dense1 P_Sparse1 P_Fixed1.
Import ListNotations.
Local Open Scope Z_scope.

(** [f p c] divides the polynomial [p], whose coefficients are read by [rd], by the integer [c]:
    division by zero panics, the least value divided by -1 panics, nothing else does, and each
    coefficient of the result is the truncated quotient. *)
Definition divides_each {P} t (rd : P -> poly Z_ring) (f : P -> int t -> res P) (p : P) : Prop :=
  forall c, ival c <> 0 ->
  (forall r, f p c = Ok r -> forall d, rd r d = Z.quot (rd p d) (ival c)) /\
  ((exists r, f p c = Ok r) <-> ~ (ival c = -1 /\ exists d, rd p d = imin t /\ imin t < 0)).

Lemma quot_in_range t (x c : int t) : ival c <> 0 ->
  in_range t (Z.quot (ival x) (ival c)) = true <-> ~ (ival c = -1 /\ ival x = imin t /\ imin t < 0).
Proof.
  intros Hc. pose proof (ival_ok x) as Hx. apply in_range_iff in Hx. pose proof (ival_ok c) as Hc'. apply in_range_iff in Hc'.
  assert (B : imin t = 0 \/ imin t = - imax t - 1) by (destruct t; vm_compute; auto).
  pose proof (imin_max t) as Hm. rewrite in_range_iff.
  destruct (Z.eq_dec (ival c) (-1)) as [E|E].
  - rewrite E. change (-1) with (- (1)). rewrite Z.quot_opp_r, Z.quot_1_r by lia. lia.
  - assert (Q : Z.abs (Z.quot (ival x) (ival c)) <= Z.abs (ival x)).
    { rewrite <- Z.quot_abs by exact Hc. apply Z.quot_le_upper_bound; [lia|]. pose proof (Z.abs_nonneg (ival x)). assert (1 <= Z.abs (ival c)) by lia. clear - H H0. nia. }
    assert (S : 0 <= ival x -> 0 < ival c -> 0 <= Z.quot (ival x) (ival c)) by (intros; apply Z.quot_pos; lia).
    assert (H2 : ival c < 0 -> 2 * Z.abs (Z.quot (ival x) (ival c)) <= Z.abs (ival x)).
    { intros Hn. rewrite <- Z.quot_abs by exact Hc. assert (C2 : 2 <= Z.abs (ival c)) by lia.
      pose proof (Z.abs_nonneg (ival x)) as X0. clear - C2 X0. revert C2 X0.
      generalize (Z.abs (ival c)) as C, (Z.abs (ival x)) as X. intros C X C2 X0.
      pose proof (Z.mul_quot_le X C X0 ltac:(lia)). pose proof (Z.quot_pos X C X0 ltac:(lia)). nia. }
    assert (Sn : ival x <= 0 -> 0 < ival c -> Z.quot (ival x) (ival c) <= 0).
    { intros. rewrite <- (Z.opp_involutive (ival x)), Z.quot_opp_l by lia. pose proof (Z.quot_pos (- ival x) (ival c)). lia. }
    lia.
Qed.

Section Div.
Variable chk : bool.
Variable t : ity.
Notation O := (int_num chk t).
Notation dc := (dcoef Z_ring (@ival t)).

Lemma Forall2_len {A B} (P : A -> B -> Prop) l r : Forall2 P l r -> length l = length r.
Proof. induction 1; cbn [length]; congruence. Qed.

Lemma quot_0 c : c <> 0 -> Z.quot 0 c = 0.
Proof. intros H. apply Z.quot_0_l, H. Qed.

Lemma list_div_coef c : ival c <> 0 -> forall l r, Forall2 (fun x y => div O x c = Ok y) l r ->
  forall d, dc r d = Z.quot (dc l d) (ival c).
Proof.
  intros Hc l r H. induction H as [|x y l r Hx H IH]; intros d; [rewrite dcoef_nil; symmetry; apply quot_0, Hc|].
  rewrite !dcoef_cons. rewrite (Forall2_len _ _ _ H).
  destruct (Nat.eqb d (length r)); [|apply IH]. apply int_div_ok in Hx. apply Hx.
Qed.

Lemma list_div_returns c : ival c <> 0 -> forall l, (exists r, Forall2 (fun x y => div O x c = Ok y) l r) <->
  ~ (ival c = -1 /\ exists d, dc l d = imin t /\ imin t < 0).
Proof.
  intros Hc l. assert (E : (exists r, Forall2 (fun x y => div O x c = Ok y) l r) <->
    Forall (fun x => ~ (ival c = -1 /\ ival x = imin t /\ imin t < 0)) l).
  { split.
    - intros (r & H). induction H as [|x y l r Hx H IH]; constructor; [|exact IH].
      apply int_div_ok in Hx. apply quot_in_range; tauto.
    - induction 1 as [|x l Hx H (r & IH)]; [exists []; constructor|].
      apply quot_in_range in Hx; [|exact Hc].
      eexists (_ :: r). constructor; [|exact IH]. apply int_div_ok. split; [exact Hc|]. split; [exact Hx|].
      apply ival_mk_int, Hx. }
  rewrite E. clear E. induction l as [|x l IH].
  - split; [intros _ (_ & d & H1 & H2)|constructor]. rewrite dcoef_nil in H1. cbn in H1. lia.
  - rewrite Forall_cons_iff, IH. clear IH. split.
    + intros (H1 & H2) (Ec & d & H3 & H4). rewrite dcoef_cons in H3. destruct (Nat.eqb d (length l)).
      * apply H1. auto. * apply H2. eauto.
    + intros H. split; intros (Ec & H1).
      * apply H. split; [exact Ec|]. exists (length l). rewrite dcoef_cons, Nat.eqb_refl. exact H1.
      * destruct H1 as (d & H1 & H2). apply H. split; [exact Ec|]. exists d. rewrite dcoef_cons.
        destruct (Nat.eqb_spec d (length l)) as [->|]; [|auto].
        rewrite dcoef_overflow in H1 by lia. cbn in H1. lia.
Qed.

End Div.

Lemma bino_of_list {T} (l : list T) : length l = 2%nat -> exists b, bino_list b = l.
Proof. destruct l as [|x [|y [|z l]]]; try discriminate. intros _. exists (MkBino x y). reflexivity. Qed.

Lemma trino_of_list {T} (l : list T) : length l = 3%nat -> exists b, trino_list b = l.
Proof. destruct l as [|x [|y [|z [|w l]]]]; try discriminate. intros _. exists (MkTrino x y z). reflexivity. Qed.

(** ** C11 for integers *)

(** What [Z.quot] is: the remainder has the sign of the dividend and is smaller than the
    divisor, and the quotient is the only such number. *)
Theorem C11_int_quotient_meaning : forall a b q, b <> 0 ->
  Z.quot a b = q <-> (Z.abs (a - b * q) < Z.abs b /\ 0 <= (a - b * q) * a).
Proof.
  intros a b q Hb. pose proof (Z.quot_rem' a b) as E. pose proof (Z.rem_bound_abs a b Hb) as B.
  pose proof (Z.rem_sign_mul a b Hb) as S. split.
  - intros <-. replace (a - b * Z.quot a b) with (Z.rem a b) by lia. split; [exact B|exact S].
  - intros (H1 & H2). set (r := a - b * q) in *. assert (Ea : a = b * q + r) by (subst r; lia).
    destruct (Z.eq_dec a 0) as [Z0|Ha].
    + rewrite Z0, Z.quot_0_l by exact Hb. rewrite Z0 in Ea. assert (Er : r = - (b * q)) by lia.
      rewrite Er, Z.abs_opp, Z.abs_mul in H1. destruct (Z.eq_dec q 0) as [->|Nq]; [reflexivity|].
      exfalso. clear - H1 Nq Hb. assert (1 <= Z.abs q) by lia. nia.
    + set (r' := Z.rem a b) in *. set (q' := Z.quot a b) in *.
      assert (D : Z.abs (r' - r) < Z.abs b).
      { destruct (Z.lt_trichotomy a 0) as [L|[L|L]]; [|lia|].
        - assert (r <= 0) by (clear - H2 L; nia). assert (r' <= 0) by (clear - S L; nia). lia.
        - assert (0 <= r) by (clear - H2 L; nia). assert (0 <= r') by (clear - S L; nia). lia. }
      assert (F : r' - r = b * (q - q')) by lia. rewrite F, Z.abs_mul in D.
      assert (Z.abs (q - q') < 1) by (clear - D Hb; nia). lia.
Qed.

Theorem C11_dense_div_int : forall chk t a,
  divides_each t (dcoef Z_ring ival) (dense_div_scalar (int_num chk t)) a /\
  divides_each t (dcoef Z_ring ival) (dense_div_scalar_assign (int_num chk t)) a.
Proof.
  intros chk t a.
  assert (A : divides_each t (dcoef Z_ring ival) (dense_div_scalar_assign (int_num chk t)) a).
  { intros c Hc. split.
    - intros r H. apply C11_dense_div_scalar in H. apply (list_div_coef chk t c Hc a r H).
    - rewrite <- (list_div_returns chk t c Hc a). split; intros (r & H); exists r; apply C11_dense_div_scalar, H. }
  split; [|exact A]. intros c Hc. destruct (A c Hc) as (A1 & A2). split.
  - intros r H d. rewrite dense_div_scalar_strip in H. inv_ok.
    change (strip (int_num chk t)) with (strip (int_num true t)).
    rewrite (strip_coef _ _ _ (checked_lawful t)). apply A1, E.
  - rewrite <- A2. rewrite dense_div_scalar_strip. destruct (dense_div_scalar_assign _ a c); cbn [bind]; split; intros (r & H); try discriminate; eauto.
Qed.

Theorem C11_sparse_div_int : forall chk t m, swf m ->
  divides_each t (scoef Z_ring ival) (sparse_div_scalar (int_num chk t)) m /\
  divides_each t (scoef Z_ring ival) (sparse_div_scalar_assign (int_num chk t)) m.
Proof.
  intros chk t m Hm.
  assert (A : divides_each t (scoef Z_ring ival) (sparse_div_scalar_assign (int_num chk t)) m).
  { intros c Hc.
    assert (G : forall r, Forall2 (fun a b => fst a = fst b /\ div (int_num chk t) (snd a) c = Ok (snd b)) m r ->
      forall k, m_get k r = match m_get k m with Some v => match div (int_num chk t) v c with Ok y => Some y | _ => None end | None => None end).
    { clear. intros r F k. induction F as [|[k1 v1] [k2 v2] m r [E1 E2] F IH]; [reflexivity|]. cbn [m_get fst snd] in *. subst k2.
      destruct (N.eqb k k1); [rewrite E2; reflexivity|exact IH]. }
    split.
    - intros r H d. destruct (C11_sparse_div _ (int_num chk t) m c r Hm (or_intror H)) as (Wr & F).
      rewrite !scoef_get by (apply Hm || apply Wr). rewrite (G r F). destruct (m_get (N.of_nat d) m) as [v|] eqn:Ev; [|symmetry; apply quot_0, Hc].
      destruct (div (int_num chk t) v c) as [y|k|] eqn:Ey; [apply int_div_ok in Ey; apply Ey| |];
        exfalso; apply m_get_in in Ev; clear -F Ev Ey;
        (induction F as [|[k1 v1] [k2 v2] m r [E1 E2] F IH]; [destruct Ev|cbn [In fst snd] in *; destruct Ev as [Ev|Ev]; [congruence|apply IH; assumption]]).
    - assert (E : (exists r, sparse_div_scalar_assign (int_num chk t) m c = Ok r) <->
        Forall (fun kv => ~ (ival c = -1 /\ ival (snd kv) = imin t /\ imin t < 0)) m).
      { clear G Hm. unfold sparse_div_scalar_assign, sparse_map_inplace. induction m as [|[k v] m IH].
        - split; [constructor|intros _; exists []; reflexivity].
        - rewrite Forall_cons_iff, <- IH. cbn [mapM fst snd]. rewrite <- (quot_in_range t v c Hc). split.
          + intros (r & H). destruct (div (int_num chk t) v c) as [y| |] eqn:Ey; try discriminate. cbn [bind] in H. inv_ok.
            apply int_div_ok in Ey. split; [apply Ey|eauto].
          + intros (H1 & r & H2). assert (Ey : div (int_num chk t) v c = Ok (mk_int t (Z.quot (ival v) (ival c)))).
            { apply int_div_ok. split; [exact Hc|]. split; [exact H1|]. apply ival_mk_int, H1. }
            rewrite Ey. cbn [bind]. rewrite H2. cbn [bind]. eauto. }
      rewrite E, Forall_forall. split.
      + intros H (Ec & d & H1 & H2). rewrite scoef_get in H1 by apply Hm.
        destruct (m_get (N.of_nat d) m) as [v|] eqn:Ev; [|cbn in H1; lia]. apply m_get_in in Ev. apply (H _ Ev). auto.
      + intros H [k v] Hi (Ec & H1 & H2). apply H. split; [exact Ec|]. exists (N.to_nat k). split; [|exact H2].
        rewrite scoef_get by apply Hm. rewrite N2Nat.id. rewrite (sorted_in_get m k v (proj1 Hm) Hi). exact H1. }
  split; [|exact A]. intros c Hc. rewrite (sparse_div_scalar_same _ m c Hm). apply (A c Hc).
Qed.

Theorem C11_fixed_div_int : forall chk t,
  (forall m, divides_each t (mpoly Z_ring ival) (mono_div_scalar (int_num chk t)) m) /\
  (forall b, divides_each t (bpoly Z_ring ival) (bino_div_scalar (int_num chk t)) b) /\
  (forall b, divides_each t (tpoly Z_ring ival) (trino_div_scalar (int_num chk t)) b).
Proof.
  intros chk t. split; [|split].
  - intros m c Hc. destruct (C11_fixed_div_scalar _ (int_num chk t) c) as (H & _). split.
    + intros r Hr d. apply H in Hr. destruct Hr as (H1 & H2). unfold mpoly, pmono. rewrite H2.
      destruct (Nat.eqb d _); [apply int_div_ok in H1; apply H1|symmetry; apply quot_0, Hc].
    + transitivity (in_range t (Z.quot (ival (mcoef m)) (ival c)) = true).
      * split.
        -- intros (r & Hr). apply H in Hr. destruct Hr as (H1 & _). apply int_div_ok in H1. apply H1.
        -- intros Hr. exists (MkMono (mk_int t (Z.quot (ival (mcoef m)) (ival c))) (mdeg m)). apply H. split; [|reflexivity].
           apply int_div_ok. split; [exact Hc|]. split; [exact Hr|]. apply ival_mk_int, Hr.
      * rewrite (quot_in_range t (mcoef m) c Hc). unfold mpoly. split; intros N (Ec & X); apply N; (split; [exact Ec|]).
        -- destruct X as (d & X & Y). unfold pmono in X. destruct (Nat.eqb d _); [auto|cbn in X; lia].
        -- exists (N.to_nat (mdeg m)). rewrite pmono_at. exact X.
  - intros b c Hc. destruct (C11_fixed_div_scalar _ (int_num chk t) c) as (_ & H & _). split.
    + intros r Hr d. apply H in Hr. apply (list_div_coef chk t c Hc _ _ Hr).
    + unfold bpoly. rewrite <- (list_div_returns chk t c Hc (bino_list b)). split.
      * intros (r & Hr). apply H in Hr. eauto.
      * intros (r & Hr). destruct (bino_of_list r) as (x & Hx). { rewrite <- (Forall2_len _ _ _ Hr). destruct b; reflexivity. }
        exists x. apply H. rewrite Hx. exact Hr.
  - intros b c Hc. destruct (C11_fixed_div_scalar _ (int_num chk t) c) as (_ & _ & H). split.
    + intros r Hr d. apply H in Hr. apply (list_div_coef chk t c Hc _ _ Hr).
    + unfold tpoly. rewrite <- (list_div_returns chk t c Hc (trino_list b)). split.
      * intros (r & Hr). apply H in Hr. eauto.
      * intros (r & Hr). destruct (trino_of_list r) as (x & Hx). { rewrite <- (Forall2_len _ _ _ Hr). destruct b; reflexivity. }
        exists x. apply H. rewrite Hx. exact Hr.
Qed.

(** -7 / 2 is -3, not -4; dividing the least [i8] by -1 panics in both modes. *)
Example C11_int_case :
  rmap (map ival) (dense_div_scalar (int_num true I8) (map (mk_int I8) [-7; 5; -1]) (mk_int I8 2)) = Ok [-3; 2; 0]
  /\ rmap (map ival) (dense_div_scalar_assign (int_num false I8) (map (mk_int I8) [-7; 5; -1]) (mk_int I8 (-2))) = Ok [3; -2; 0]
  /\ dense_div_scalar (int_num false I8) (map (mk_int I8) [1; -128]) (mk_int I8 (-1)) = Panic POverflow
  /\ rmap (map ival) (dense_div_scalar (int_num true U8) (map (mk_int U8) [255; 3]) (mk_int U8 2)) = Ok [127; 1].
Proof. vm_compute. repeat split. Qed.
