(** Integer square root by Newton iteration: the loop of [abs_sqrt] stays above the floor square
    root, halves its distance to it in every round, and never overflows. *)

From Coq Require Import List NArith ZArith Lia Bool Psatz.
From Coq Require Import ZifyBool ZifyNat ZifyN.
From Verif Require Import Base Num Laws Numerics.
Import ListNotations.
Local Open Scope Z_scope.

(** The Newton step on integers. *)
Definition nstep (n g : Z) : Z := (g + n / g) / 2.

Lemma div_lt_iff a b c : 0 < b -> (a / b < c <-> a < b * c).
Proof.
  intros Hb. split; intros H.
  - apply Z.nle_gt. intros Hc. apply Z.div_le_lower_bound in Hc; lia.
  - apply Z.div_lt_upper_bound; lia.
Qed.
Lemma div_ge_iff a b c : 0 < b -> (c <= a / b <-> b * c <= a).
Proof. intros Hb. pose proof (div_lt_iff a b c Hb). lia. Qed.

Section Newton.
Variables n s : Z.
Hypothesis Hs : 1 <= s.
Hypothesis Hlo : s * s <= n.
Hypothesis Hhi : n < (s + 1) * (s + 1).

(** Every step lands at or above the root. *)
Lemma nstep_ge g : 1 <= g -> s <= nstep n g.
Proof.
  intros Hg. unfold nstep. apply div_ge_iff; [lia|].
  enough (2 * s - g <= n / g) by lia. apply div_ge_iff; [lia|]. pose proof (Z.square_nonneg (g - s)). nia.
Qed.

(** Strictly above the root a step halves the distance. *)
Lemma nstep_half g : s < g -> nstep n g - s <= (g - s) / 2.
Proof.
  intros Hg. unfold nstep.
  assert (n / g <= s). { enough (n / g < s + 1) by lia. apply div_lt_iff; [lia|]. nia. }
  replace ((g - s) / 2) with ((g + s) / 2 - s).
  2:{ replace (g + s) with (g - s + s * 2) by lia. rewrite Z.div_add by lia. lia. }
  enough ((g + n / g) / 2 <= (g + s) / 2) by lia. apply Z.div_le_mono; lia.
Qed.

Lemma nstep_root : s <= nstep n s <= s + 1.
Proof.
  split; [apply nstep_ge; lia|]. unfold nstep.
  enough ((s + n / s) / 2 < s + 2) by lia. apply div_lt_iff; [lia|].
  enough (n / s < s + 3) by lia. apply div_lt_iff; [lia|]. nia.
Qed.

End Newton.

Lemma sqrt_bounds n : 1 <= n -> let s := Z.sqrt n in 1 <= s /\ s * s <= n /\ n < (s + 1) * (s + 1).
Proof.
  intros Hn s. pose proof (Z.sqrt_spec n ltac:(lia)) as H. fold s in H. unfold Z.succ in H.
  split; [|lia]. subst s. change 1 with (Z.sqrt 1). apply Z.sqrt_le_mono. exact Hn.
Qed.

Lemma bit_length_spec z : 1 <= z -> 1 <= bit_length z /\ 2 ^ (bit_length z - 1) <= z < 2 ^ bit_length z.
Proof.
  intros Hz. unfold bit_length. destruct (Z.eqb_spec z 0); [lia|].
  pose proof (Z.log2_spec z ltac:(lia)). pose proof (Z.log2_nonneg z). unfold Z.succ in *.
  replace (Z.log2 z + 1 - 1) with (Z.log2 z) by lia. lia.
Qed.

Lemma bit_length_le z b : 0 <= b -> 1 <= z < 2 ^ b -> bit_length z <= b.
Proof.
  intros Hb Hz. destruct (bit_length_spec z ltac:(lia)) as (H1 & H2 & H3).
  apply Z.nlt_ge. intros Hlt.
  assert (2 ^ b <= 2 ^ (bit_length z - 1)) by (apply Z.pow_le_mono_r; lia). lia.
Qed.

(** The starting point.  [B] bounds every iterate; its square fits in the type. *)
Definition first_guess (n : Z) : Z := Z.shiftr n (bit_length n / 2) + 1.

Lemma first_guess_facts n w : 0 <= w -> 2 <= n < 2 ^ (2 * w) ->
  exists B, B + 1 <= 2 ^ w /\ 2 <= first_guess n <= B + 1 /\ nstep n (first_guess n) <= B /\ Z.sqrt n <= B
  /\ (Z.sqrt n = B -> Z.abs (nstep n (first_guess n) - first_guess n) <= 1).
Proof.
  intros Hw Hn. unfold first_guess.
  destruct (bit_length_spec n ltac:(lia)) as (Hk & Hk1 & Hk2).
  pose proof (bit_length_le n (2 * w) ltac:(lia) ltac:(lia)) as Hkw.
  destruct (sqrt_bounds n ltac:(lia)) as (Hs1 & Hs2 & Hs3). set (s := Z.sqrt n) in *.
  set (k := bit_length n) in *. set (j := k / 2).
  assert (Hk3 : 2 <= k).
  { apply Z.nlt_ge. intros H. assert (k = 1) as E by lia. rewrite E in Hk2. change (2 ^ 1) with 2 in Hk2. lia. }
  assert (Hj : 1 <= j) by (apply div_ge_iff; lia).
  rewrite Z.shiftr_div_pow2 by lia.
  assert (Hp : 2 <= 2 ^ j). { change 2 with (2 ^ 1) at 1. apply Z.pow_le_mono_r; lia. }
  set (q := n / 2 ^ j).
  assert (Hq : 2 ^ j * q <= n < 2 ^ j * (q + 1)).
  { pose proof (Z.mod_pos_bound n (2 ^ j) ltac:(lia)). pose proof (Z.div_mod n (2 ^ j) ltac:(lia)). fold q in H0. lia. }
  assert (Hng : n / (q + 1) < 2 ^ j).
  { apply div_lt_iff; [|lia]. subst q. pose proof (Z.div_pos n (2 ^ j) ltac:(lia) ltac:(lia)). lia. }
  assert (Hq1 : 1 <= q).
  { apply div_ge_iff; [lia|]. assert (2 ^ j <= 2 ^ (k - 1)).
    { apply Z.pow_le_mono_r; [lia|]. subst j. pose proof (Z.mul_div_le k 2 ltac:(lia)). lia. } lia. }
  pose proof (Z.div_mod k 2 ltac:(lia)) as Hdm. fold j in Hdm.
  pose proof (Z.mod_pos_bound k 2 ltac:(lia)) as Hm.
  assert (Hcase : k mod 2 = 0 \/ k mod 2 = 1) by lia. destruct Hcase as [E|E].
  - (* even number of bits *)
    assert (Hn2 : n < 2 ^ j * 2 ^ j). { rewrite <- Z.pow_add_r by lia. replace (j + j) with k by lia. lia. }
    assert (Hqj : q <= 2 ^ j - 1). { enough (q < 2 ^ j) by lia. apply div_lt_iff; lia. }
    exists (2 ^ j - 1). split; [|split; [|split; [|split]]].
    + assert (2 ^ j <= 2 ^ w) by (apply Z.pow_le_mono_r; lia). lia.
    + lia.
    + unfold nstep. enough ((q + 1 + n / (q + 1)) / 2 < 2 ^ j) by lia. apply div_lt_iff; lia.
    + nia.
    + intros Es. set (P := 2 ^ j) in *.
      assert (Hnlo : (P - 1) * (P - 1) <= n) by nia.
      assert (Hq2 : P - 2 <= q) by (apply div_ge_iff; [lia|nia]).
      unfold nstep. assert (Hqq : q = P - 2 \/ q = P - 1) by lia. destruct Hqq as [Eq|Eq].
      * replace (q + 1) with (P - 1) by lia.
        assert (n / (P - 1) = P - 1).
        { assert (P - 1 <= n / (P - 1)) by (apply div_ge_iff; [lia|nia]).
          assert (n / (P - 1) < P) by (apply div_lt_iff; [lia|nia]). lia. }
        rewrite H. replace (P - 1 + (P - 1)) with ((P - 1) * 2) by lia. rewrite Z.div_mul by lia. lia.
      * replace (q + 1) with P by lia.
        assert (n / P = P - 1) by (subst q; exact Eq).
        rewrite H. replace (P + (P - 1)) with (1 + (P - 1) * 2) by lia.
        rewrite Z.div_add by lia. change (1 / 2) with 0. lia.
  - (* odd number of bits *)
    assert (Hn2 : n < 2 * (2 ^ j * 2 ^ j)).
    { rewrite <- Z.pow_add_r by lia. replace (2 * 2 ^ (j + j)) with (2 ^ (Z.succ (j + j))) by (rewrite Z.pow_succ_r; lia).
      replace (Z.succ (j + j)) with k by lia. lia. }
    assert (Hqj : q < 2 * 2 ^ j) by (apply div_lt_iff; lia).
    exists (2 * 2 ^ j - 1). split; [|split; [|split; [|split]]].
    + replace (2 * 2 ^ j - 1 + 1) with (2 ^ (Z.succ j)) by (rewrite Z.pow_succ_r; lia).
      apply Z.pow_le_mono_r; lia.
    + lia.
    + unfold nstep. enough ((q + 1 + n / (q + 1)) / 2 < 2 * 2 ^ j) by lia. apply div_lt_iff; lia.
    + nia.
    + intros Es. exfalso. set (P := 2 ^ j) in *. nia.
Qed.

(** ** The operations never overflow *)

Section Width.
Variables (chk : bool) (t : ity).
Hypothesis Hu : signed t = false.

Definition half_bits : Z := bits t / 2.
Lemma width_facts : imin t = 0 /\ imax t + 1 = 2 ^ half_bits * 2 ^ half_bits /\ 4 <= half_bits /\ 16 <= 2 ^ half_bits
  /\ half_bits <= 64.
Proof. unfold half_bits, imin, imax. rewrite Hu. destruct t; try discriminate Hu; vm_compute; repeat split; discriminate. Qed.

Lemma mk_small z : 0 <= z <= imax t -> in_range t z = true /\ ival (mk_int t z) = z.
Proof.
  intros H. assert (E : in_range t z = true) by (apply in_range_iff; pose proof width_facts; lia).
  split; [exact E|apply ival_mk_int, E].
Qed.
Lemma arith_small z : 0 <= z <= imax t -> arith chk t z = Ok (mk_int t z).
Proof. intros H. apply arith_in_range, mk_small, H. Qed.
Lemma uint_range (a : int t) : 0 <= ival a <= imax t.
Proof. pose proof (ival_ok a) as H. apply in_range_iff in H. pose proof width_facts. lia. Qed.
Lemma idiv_small a b : ival b <> 0 -> idiv t a b = Ok (mk_int t (ival a / ival b)).
Proof.
  intros Hb. pose proof (uint_range a) as Ra. pose proof (uint_range b) as Rb. unfold idiv.
  destruct (Z.eqb_spec (ival b) 0); [contradiction|].
  rewrite Z.quot_div_nonneg by lia. destruct (mk_small (ival a / ival b)) as [-> _]; [|reflexivity].
  split; [apply Z.div_pos; lia|]. apply Z.le_trans with (ival a); [|lia].
  apply Z.div_le_upper_bound; nia.
Qed.

Lemma newton_ok (n g : int t) : 1 <= ival g -> ival g + ival n / ival g <= imax t ->
  newton chk t n g = Ok (mk_int t (nstep (ival n) (ival g))).
Proof.
  intros Hg Hb. pose proof (uint_range n) as Rn. unfold newton.
  rewrite idiv_small by lia. cbn [bind].
  assert (0 <= ival n / ival g) by (apply Z.div_pos; lia).
  destruct (mk_small (ival n / ival g)) as [_ E1]; [lia|]. rewrite E1.
  rewrite arith_small by lia. cbn [bind].
  destruct (mk_small (ival g + ival n / ival g)) as [_ E2]; [lia|].
  pose proof width_facts.
  assert (imax t >= 255) by nia.
  destruct (mk_small 2) as [_ E3]; [lia|].
  rewrite idiv_small by (rewrite E3; lia). rewrite E2, E3. reflexivity.
Qed.

(** The invariant of the loop: iterates between the root and [B]. *)
Section Loop.
Variables (n : int t) (s B : Z).
Hypothesis Hs : 1 <= s.
Hypothesis Hlo : s * s <= ival n.
Hypothesis Hhi : ival n < (s + 1) * (s + 1).
Hypothesis HB : B + 1 <= 2 ^ half_bits.

Lemma B_max : B + s + 3 <= imax t.
Proof. pose proof width_facts. pose proof (uint_range n). nia. Qed.

Lemma quot_bound g : s <= g -> ival n / g <= s + 2.
Proof. intros Hg. enough (ival n / g < s + 3) by lia. apply div_lt_iff; [lia|]. nia. Qed.

Lemma newton_loop_stop f g r : Z.abs (ival r - ival g) <= 1 -> newton_loop chk t (S f) n g r = Ok r.
Proof.
  intros H. pose proof (uint_range g) as Rg. pose proof (uint_range r) as Rr.
  cbn [newton_loop]. rewrite Z.gtb_ltb. destruct (Z.ltb_spec (ival g) (ival r)).
  - rewrite arith_small by lia. cbn [bind]. destruct (mk_small (ival r - ival g)) as [_ ->]; [lia|].
    destruct (Z.leb_spec (ival r - ival g) 1); [reflexivity|lia].
  - rewrite arith_small by lia. cbn [bind]. destruct (mk_small (ival g - ival r)) as [_ ->]; [lia|].
    destruct (Z.leb_spec (ival g - ival r) 1); [reflexivity|lia].
Qed.

Lemma newton_loop_go f g r : 1 < Z.abs (ival r - ival g) ->
  newton_loop chk t (S f) n g r = (r' <- newton chk t n r ;; newton_loop chk t f n r r').
Proof.
  intros H. pose proof (uint_range g) as Rg. pose proof (uint_range r) as Rr.
  cbn [newton_loop]. rewrite Z.gtb_ltb. destruct (Z.ltb_spec (ival g) (ival r)).
  - rewrite arith_small by lia. cbn [bind]. destruct (mk_small (ival r - ival g)) as [_ ->]; [lia|].
    destruct (Z.leb_spec (ival r - ival g) 1); [lia|reflexivity].
  - rewrite arith_small by lia. cbn [bind]. destruct (mk_small (ival g - ival r)) as [_ ->]; [lia|].
    destruct (Z.leb_spec (ival g - ival r) 1); [lia|reflexivity].
Qed.

(** Once the iterate [r] is above the root, [k + 2] rounds are enough when [r - s < 2^k]. *)
Lemma newton_loop_ok (k : nat) : forall f g r, (k + 2 <= f)%nat -> s < B ->
  s <= ival r <= B -> ival r - s < 2 ^ Z.of_nat k -> (s <= ival g \/ ival r <= s + 1 \/ 1 < Z.abs (ival r - ival g)) ->
  (ival g >= s -> ival r <= s + 1 \/ ival r - s <= (ival g - s) / 2) ->
  exists r', newton_loop chk t f n g r = Ok r' /\ s <= ival r' <= s + 1 /\ ival r' <= B.
Proof.
  induction k as [|k IH]; intros f g r Hf HsB Hr Hk Hg Hh.
  - change (2 ^ Z.of_nat 0) with 1 in Hk. assert (Er : ival r = s) by lia.
    destruct f as [|[|f]]; [lia|lia|].
    destruct (Z.le_gt_cases (Z.abs (ival r - ival g)) 1) as [Hc|Hc].
    + rewrite newton_loop_stop by exact Hc. exists r. split; [reflexivity|lia].
    + rewrite newton_loop_go by exact Hc.
      pose proof B_max. pose proof (quot_bound (ival r) ltac:(lia)).
      rewrite newton_ok by lia. cbn [bind]. rewrite Er.
      pose proof (nstep_root (ival n) s Hs Hlo Hhi) as Hn.
      destruct (mk_small (nstep (ival n) s)) as [_ E]; [lia|].
      rewrite newton_loop_stop by (rewrite E, Er; lia). exists (mk_int t (nstep (ival n) s)). split; [reflexivity|rewrite E; lia].
  - destruct f as [|f]; [lia|].
    destruct (Z.le_gt_cases (Z.abs (ival r - ival g)) 1) as [Hc|Hc].
    + rewrite newton_loop_stop by exact Hc. exists r. split; [reflexivity|].
      split; [|lia]. split; [lia|].
      destruct (Z.le_gt_cases s (ival g)) as [Hsg|Hsg].
      * destruct (Hh ltac:(lia)) as [H|H]; [exact H|].
        pose proof (Z.div_mod (ival g - s) 2 ltac:(lia)). pose proof (Z.mod_pos_bound (ival g - s) 2 ltac:(lia)). lia.
      * destruct Hg as [H|[H|H]]; lia.
    + rewrite newton_loop_go by exact Hc.
      pose proof B_max. pose proof (quot_bound (ival r) ltac:(lia)).
      rewrite newton_ok by lia. cbn [bind].
      destruct (Z.eq_dec (ival r) s) as [Er|Er].
      * rewrite Er. pose proof (nstep_root (ival n) s Hs Hlo Hhi) as Hn.
        destruct (mk_small (nstep (ival n) s)) as [_ E]; [lia|].
        destruct f as [|f]; [lia|].
        rewrite newton_loop_stop by (rewrite E, Er; lia). exists (mk_int t (nstep (ival n) s)). split; [reflexivity|rewrite E; lia].
      * pose proof (nstep_ge (ival n) s Hs Hlo Hhi (ival r) ltac:(lia)) as H1.
        pose proof (nstep_half (ival n) s Hs Hlo Hhi (ival r) ltac:(lia)) as H2.
        assert (H3 : (ival r - s) / 2 <= ival r - s) by (apply Z.div_le_upper_bound; lia).
        destruct (mk_small (nstep (ival n) (ival r))) as [_ E]; [lia|].
        apply IH; rewrite ?E; try lia.
        -- replace (Z.of_nat (S k)) with (Z.succ (Z.of_nat k)) in Hk by lia. rewrite Z.pow_succ_r in Hk by lia.
           assert ((ival r - s) / 2 < 2 ^ Z.of_nat k) by (apply div_lt_iff; lia). lia.
Qed.

Lemma fix_down_ok f r : (2 <= f)%nat -> s <= ival r <= s + 1 -> ival r <= B ->
  exists r', fix_down chk t f n r = Ok r' /\ ival r' = s.
Proof.
  intros Hf Hr HrB. pose proof width_facts as (W1 & W2 & W3 & W4 & _).
  assert (Hsq : forall z, 0 <= z <= B -> 0 <= z * z <= imax t) by (intros z Hz; nia).
  destruct f as [|f]; [lia|]. cbn [fix_down].
  rewrite arith_small by (apply Hsq; lia). cbn [bind].
  destruct (mk_small (ival r * ival r)) as [_ ->]; [apply Hsq; lia|].
  rewrite Z.gtb_ltb. destruct (Z.ltb_spec (ival n) (ival r * ival r)) as [H|H].
  - assert (Er : ival r = s + 1) by nia.
    pose proof (uint_range r).
    rewrite arith_small by lia. cbn [bind].
    destruct (mk_small (ival r - 1)) as [_ E]; [lia|].
    destruct f as [|f]; [lia|]. cbn [fix_down]. rewrite E.
    rewrite arith_small by (apply Hsq; lia). cbn [bind].
    destruct (mk_small ((ival r - 1) * (ival r - 1))) as [_ ->]; [apply Hsq; lia|].
    rewrite Z.gtb_ltb. destruct (Z.ltb_spec (ival n) ((ival r - 1) * (ival r - 1))); [nia|].
    eexists. split; [reflexivity|]. rewrite E. lia.
  - exists r. split; [reflexivity|nia].
Qed.

End Loop.

Lemma abs_sqrt_u_ok (f : nat) (n : int t) : (Z.to_nat half_bits + 3 <= f)%nat ->
  exists r, abs_sqrt_u chk t f n = Ok r /\ ival r = Z.sqrt (ival n).
Proof.
  intros Hf. pose proof width_facts as (W1 & W2 & W3 & W4 & W5). pose proof (uint_range n) as Rn.
  unfold abs_sqrt_u. destruct (Z.ltb_spec (ival n) 2) as [H|H].
  - exists n. split; [reflexivity|]. assert (E : ival n = 0 \/ ival n = 1) by lia. destruct E as [-> | ->]; reflexivity.
  - destruct (sqrt_bounds (ival n) ltac:(lia)) as (Hs1 & Hs2 & Hs3). cbv zeta.
    change (Z.shiftr (ival n) (bit_length (ival n) / 2) + 1) with (first_guess (ival n)).
    assert (Hrange : 2 <= ival n < 2 ^ (2 * half_bits)).
    { replace (2 * half_bits) with (half_bits + half_bits) by lia. rewrite Z.pow_add_r by lia. lia. }
    destruct (first_guess_facts (ival n) half_bits ltac:(lia) Hrange) as (B & B1 & B2 & B3 & B4 & B5).
    set (g0 := first_guess (ival n)) in *. set (s := Z.sqrt (ival n)) in *.
    assert (HBm : B + 1 <= imax t) by nia.
    rewrite arith_small by lia. cbn [bind].
    destruct (mk_small g0) as [_ Eg]; [lia|]. set (g := mk_int t g0) in *.
    assert (Hdiv : ival n / g0 <= 2 * B + 1).
    { enough (ival n / g0 < 2 * B + 2) by lia. unfold nstep in B3.
      assert ((g0 + ival n / g0) < 2 * (B + 1)) by (apply div_lt_iff; lia). lia. }
    assert (Hg2 : ival n / g0 + g0 <= 2 * B + 1).
    { unfold nstep in B3. assert ((g0 + ival n / g0) < 2 * (B + 1)) by (apply div_lt_iff; lia). lia. }
    rewrite newton_ok by (rewrite Eg; nia). cbn [bind]. rewrite Eg.
    pose proof (nstep_ge (ival n) s Hs1 Hs2 Hs3 g0 ltac:(lia)) as Hr1.
    destruct (mk_small (nstep (ival n) g0)) as [_ Er]; [lia|]. set (r := mk_int t (nstep (ival n) g0)) in *.
    assert (Hloop : exists r', newton_loop chk t f n g r = Ok r' /\ s <= ival r' <= s + 1 /\ ival r' <= B).
    { destruct (Z.le_gt_cases (Z.abs (ival r - ival g)) 1) as [Hc|Hc].
      - destruct f as [|f]; [lia|]. exists r. split; [apply newton_loop_stop, Hc|]. rewrite Er. split; [|lia].
        split; [lia|]. destruct (Z.le_gt_cases g0 s) as [Hgs|Hgs]; [lia|].
        pose proof (nstep_half (ival n) s Hs1 Hs2 Hs3 g0 Hgs).
        pose proof (Z.div_mod (g0 - s) 2 ltac:(lia)). pose proof (Z.mod_pos_bound (g0 - s) 2 ltac:(lia)). lia.
      - assert (HsB : s < B). { destruct (Z.eq_dec s B) as [E|E]; [|lia]. specialize (B5 E). lia. }
        apply (newton_loop_ok n s B Hs1 Hs2 Hs3 B1 (Z.to_nat half_bits)); try lia.
        rewrite Z2Nat.id by lia. lia.
        intros Hge. right. rewrite Er, Eg in *.
        destruct (Z.eq_dec g0 s) as [E|E].
        + pose proof (nstep_root (ival n) s Hs1 Hs2 Hs3). rewrite E in *. lia.
        + apply (nstep_half (ival n) s Hs1 Hs2 Hs3 g0 ltac:(lia)). }
    destruct Hloop as (r' & -> & Hr' & Hr'B). cbn [bind].
    apply (fix_down_ok n s B Hs1 Hs2 Hs3 B1); [lia|exact Hr'|exact Hr'B].
Qed.

End Width.
