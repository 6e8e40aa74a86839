(** Property C46: root finding by deflation, for degree at least 4. *)

From Coq Require Import List NArith ZArith Reals Lia Lra Bool Arith Sorted QArith Qcanon.
From Coq Require Import ZifyBool ZifyNat ZifyN.
From Flocq Require Import BinarySingleNaN.
From Verif Require Import Base Num Spec SpecFacts Laws Terms Dense DenseFacts DenseMul DenseCalc DenseDiv
  Sparse SparseFacts SparseCalc Roots RootSpecial RealNum Floats FloatFacts FloatDiv RootLoop FloatRoots P_Roots3.
Import ListNotations.
Local Open Scope nat_scope.

Section Big.
Context {T : Type} (O : num T) (S : rops T) (R : comring) (den : T -> car R) (L : lawful O R den).
Context (X : exact_div O R den) (H10 : r1 <> @r0 R).
Notation dt := (dterms R den).

(** For two or more terms and degree at least 4, root finding is its loop. *)
Lemma find_roots_big solver dfuel fuel deg eval (P : poly R) ts n :
  is_listing P (dt ts) -> is_degree P (Some n) -> (4 <= n)%nat -> (exists i, (i < n)%nat /\ P i <> r0) ->
  (N.of_nat n + 1 <= n_max_len O)%N ->
  exists values nv, find_roots O S solver dfuel deg eval fuel ts = find_loop O S solver dfuel deg eval fuel 0 values nv [] /\
    monic_of O R den values nv /\ lead O nv /\ vec_ok O nv /\ length nv = Datatypes.S n /\ split_off R den P nv [].
Proof.
  intros H Hd Hn (i & Hi & Hpi) Hc.
  assert (Dec : decreasing ts) by (apply (dt_decreasing R den), H).
  assert (Sh : exists x y rest, ts = (x, N.of_nat n) :: y :: rest).
  { pose proof (is_listing_degree P (dt ts) H) as K.
    destruct ts as [|[x k] ts]; [exfalso; apply Hpi; destruct H as (_ & _ & H); rewrite <- H; reflexivity|].
    cbn [dterms map fst snd] in K. pose proof (is_degree_unique _ _ _ Hd K) as E. injection E as ->. rewrite Nnat.N2Nat.id in *.
    destruct ts as [|y rest]; [|eauto]. exfalso. apply Hpi. destruct H as (_ & _ & H). rewrite <- H. cbn [dterms map terms_coef fst snd].
    unfold padd, pmono, pzero. destruct (Nat.eqb_spec i (N.to_nat k)); [lia|]. apply radd_0_r. }
  destruct Sh as (x & y & rest & ->).
  assert (Hu : (N.of_nat n + 1 <= USIZE_MAX)%N).
  { pose proof (lw_cap _ _ _ L) as HC. unfold USIZE_MAX. etransitivity; [exact Hc|]. etransitivity; [exact HC|]. vm_compute; discriminate. }
  destruct (start_ok O R den L X H10 solver n eval P x (y :: rest) H ltac:(lia) Hc) as (values & nv & E & M & Ld & V & Ln & Sp).
  exists values, nv. split; [|auto].
  unfold find_roots. rewrite (special_ok O S _ Dec). unfold special_spec.
  destruct (N.eqb_spec (N.of_nat n) 1); [lia|]. destruct (N.eqb_spec (N.of_nat n) 2); [lia|]. destruct (N.eqb_spec (N.of_nat n) 3); [lia|].
  cbn [bind]. change (index ((x, N.of_nat n) :: y :: rest) 0) with (Ok (x, N.of_nat n)). cbn [bind].
  rewrite uadd_small by exact Hu. cbn [bind]. unfold vec_repeat. destruct (N.leb_spec (N.of_nat n + 1) (n_max_len O)); [|lia]. cbn [bind].
  replace (N.to_nat (N.of_nat n + 1)) with (Datatypes.S n) by lia.
  assert (update (repeat (zero O) (Datatypes.S n)) 0 (fun _ => Ok x) = Ok (x :: repeat (zero O) n)) as -> by reflexivity. cbn [bind].
  change (slice_from ((x, N.of_nat n) :: y :: rest) 1) with (Ok (y :: rest)). cbn [bind].
  rewrite E. reflexivity.
Qed.
End Big.

(** ** Exact arithmetic *)

(** Whatever the solver returns (on whichever pass), root finding ends; at most deg p passes
    are made: the fuel counts them.  For every coefficient type with exact arithmetic. *)
Theorem C46_terminates : forall T (O : num T) (S : rops T) R den, lawful O R den -> exact_div O R den -> total_ops O ->
  (forall a, exists b, absv O a = Ok b) -> r1 <> @r0 R ->
  forall solver dfuel fuel n,
  (forall l, is_degree (dcoef R den l) (Some n) -> (4 <= n)%nat -> vec_ok O l -> (n < dfuel)%nat -> (Datatypes.S n < fuel)%nat ->
     exists rs, dense_roots O S solver dfuel fuel l = Ok rs) /\
  (forall m, swf m -> Forall (fun kv => (fst kv < 2 ^ 32)%N) m -> (forall a e, exists c, upow O a e = Ok c) ->
     is_degree (scoef R den m) (Some n) -> (4 <= n)%nat -> (N.of_nat n + 1 <= n_max_len O)%N -> (n < dfuel)%nat -> (Datatypes.S n < fuel)%nat ->
     exists rs, sparse_roots O S solver dfuel fuel m = Ok rs).
Proof.
  intros T O S R den L X HT HA H10 solver dfuel fuel n.
  assert (G : forall P ts deg eval, deg = Num (N.of_nat n) -> is_listing P (dterms R den ts) -> is_degree P (Some n) -> (4 <= n)%nat ->
    (forall x, exists v, eval x = Ok v /\ is_value P (den x) (den v)) -> (N.of_nat n + 1 <= n_max_len O)%N -> (n < dfuel)%nat -> (Datatypes.S n < fuel)%nat ->
    exists rs, find_roots O S solver dfuel deg eval fuel ts = Ok rs).
  { intros P ts deg eval -> H Hd Hn He Hc Hdf Hf.
    assert (C : (exists i, (i < n)%nat /\ P i <> r0) \/ peq P (pmono (P n) n)).
    { assert (Dec : (exists i, (i < n)%nat /\ P i <> r0) \/ (forall i, (i < n)%nat -> P i = r0)).
      { clear - H L. induction n as [|k IH]; [right; lia|]. destruct IH as [(i & Hi & E)|IH]; [left; exists i; split; [lia|exact E]|].
        assert (Z : P k = r0 \/ P k <> r0).
        { rewrite <- (Nnat.Nat2N.id k), <- (coef_at_den O R den L P ts (N.of_nat k) H). destruct (is_zero O (coef_at O ts (N.of_nat k))) eqn:E.
          - left. apply (lw_is_zero _ _ _ L), E. - right. intros K. apply (lw_is_zero _ _ _ L) in K. congruence. }
        destruct Z as [Z|Z]; [|left; exists k; auto]. right. intros i Hi. destruct (Nat.eq_dec i k) as [->|]; [exact Z|apply IH; lia]. }
      destruct Dec as [|Z]; [left; assumption|]. right. intros d. unfold pmono. destruct (Nat.eqb_spec d n) as [->|]; [reflexivity|].
      destruct (Nat.lt_ge_cases d n); [apply Z; assumption|]. apply Hd. lia. }
    destruct C as [C|C].
    - destruct (find_roots_big O S R den L X H10 solver dfuel fuel (Num (N.of_nat n)) eval P ts n H Hd Hn C Hc) as (values & nv & E & M & Ld & V & Ln & Sp).
      rewrite E. apply (loop_returns O R den L X HT H10 S solver dfuel n eval P He HA).
      + destruct M as (? & ? & ? & -> & _). discriminate.
      + right. split; [exact Ld|]. split; [exact V|lia].
      + lia.
    - eexists. eapply fr_mono; [exact H|apply Hd|]. rewrite Nnat.Nat2N.id. exact C. }
  split.
  - intros l Hd Hn Hv Hdf Hf. unfold dense_roots. destruct (dense_terms_spec O R den L l) as (ts & E & H & _). rewrite E. cbn [bind].
    apply (G (dcoef R den l)); auto.
    + pose proof (dense_degree_spec O R den L l) as K. pose proof (is_degree_unique _ _ _ Hd K) as E2.
      destruct (dense_degree O l) as [|d]; [discriminate|]. injection E2 as ->. rewrite Nnat.N2Nat.id. reflexivity.
    + intros x. destruct (dense_eval_total O HT l x) as (v & Ev). exists v. split; [exact Ev|]. apply (dense_eval_value O R den L), Ev.
    + unfold vec_ok, len in Hv. destruct Hd as [Hd _]. assert (n < length l)%nat; [|lia].
      destruct (Nat.lt_ge_cases n (length l)); [assumption|]. exfalso. apply Hd, dcoef_overflow. lia.
  - intros m Hm Hk HU Hd Hn Hc Hdf Hf. unfold sparse_roots.
    apply (G (scoef R den m)); auto.
    + pose proof (sparse_degree_spec O R den L m (proj1 Hm)) as K. pose proof (is_degree_unique _ _ _ Hd K) as E2.
      destruct (sparse_degree O m) as [|d]; [discriminate|]. injection E2 as ->. rewrite Nnat.N2Nat.id. reflexivity.
    + apply (sparse_terms_spec O R den L), Hm.
    + intros x. destruct (sparse_eval_total O HT HU m x) as (v & Ev). exists v. split; [exact Ev|]. apply (sparse_eval_value O R den L); assumption.
Qed.

(** If the solver returns distinct roots of the monic polynomial it is given, everything
    reported is a root with its multiplicity: the polynomial is the product of x - r times a
    rest, which is constant for [ManyRealRoots] (then there are deg p roots), and without roots
    when the solver misses none. *)
Definition root_report {R : comring} {T} (den : T -> car R) (P : poly R) (n : nat) (complete : Prop) (rs : roots T) : Prop :=
  match rs with
  | ManyRealRoots l => length l = n /\ exists k, k <> r0 /\ peq P (pmul (pmono k 0) (rprod (map den l)))
  | OnlyRealRoots l => l <> [] /\ (length l < n)%nat /\
      exists q, peq P (pmul (rprod (map den l)) q) /\ is_degree q (Some (n - length l)%nat) /\
        (complete -> forall r, ~ is_value q (den r) r0)
  | NoRoots => complete -> forall r, ~ is_value P (den r) r0
  | _ => False
  end.

Theorem C46_sound : forall T (O : num T) (S : rops T) R den, lawful O R den -> exact_div O R den -> total_ops O ->
  (forall a, exists b, absv O a = Ok b) -> r1 <> @r0 R -> domain R ->
  (forall a b a' b', den b = r0 -> absv O a = Ok a' -> absv O b = Ok b' -> lt S a' b' = false) ->
  forall solver dfuel fuel n rs,
  (forall pass tl, NoDup (solver pass tl) /\ forall r, In r (solver pass tl) -> is_value (dcoef R den (one O :: tl)) (den r) r0) ->
  let complete := forall pass tl r, is_value (dcoef R den (one O :: tl)) (den r) r0 -> In r (solver pass tl) in
  (forall l, is_degree (dcoef R den l) (Some n) -> (4 <= n)%nat -> (exists i, (i < n)%nat /\ dcoef R den l i <> r0) ->
     vec_ok O l -> (n < dfuel)%nat ->
     dense_roots O S solver dfuel fuel l = Ok rs -> root_report den (dcoef R den l) n complete rs) /\
  (forall m, swf m -> Forall (fun kv => (fst kv < 2 ^ 32)%N) m -> (forall a e, exists c, upow O a e = Ok c) ->
     is_degree (scoef R den m) (Some n) -> (4 <= n)%nat -> (exists i, (i < n)%nat /\ scoef R den m i <> r0) ->
     (N.of_nat n + 1 <= n_max_len O)%N -> (n < dfuel)%nat ->
     sparse_roots O S solver dfuel fuel m = Ok rs -> root_report den (scoef R den m) n complete rs).
Proof.
  intros T O S R den L X HT HA H10 HD Hlt solver dfuel fuel n rs HS complete.
  assert (G : forall P ts deg eval, deg = Num (N.of_nat n) -> is_listing P (dterms R den ts) -> is_degree P (Some n) -> (4 <= n)%nat ->
    (exists i, (i < n)%nat /\ P i <> r0) ->
    (forall x, exists v, eval x = Ok v /\ is_value P (den x) (den v)) -> (N.of_nat n + 1 <= n_max_len O)%N -> (n < dfuel)%nat ->
    find_roots O S solver dfuel deg eval fuel ts = Ok rs -> root_report den P n complete rs).
  { intros P ts deg eval -> H Hd Hn C He Hc Hdf E.
    destruct (find_roots_big O S R den L X H10 solver dfuel fuel (Num (N.of_nat n)) eval P ts n H Hd Hn C Hc) as (values & nv & E' & M & Ld & V & Ln & Sp).
    rewrite E' in E. refine (loop_sound O R den L X HT HD H10 S solver dfuel n eval P He HA Hlt HS fuel 0 values nv [] rs M Ld V _ Sp _ E).
    - lia. - rewrite Ln. simpl. lia. }
  split.
  - intros l Hd Hn C Hv Hdf. unfold dense_roots. destruct (dense_terms_spec O R den L l) as (ts & E & H & _). rewrite E. cbn [bind].
    apply (G (dcoef R den l)); auto.
    + pose proof (dense_degree_spec O R den L l) as K. pose proof (is_degree_unique _ _ _ Hd K) as E2.
      destruct (dense_degree O l) as [|d]; [discriminate|]. injection E2 as ->. rewrite Nnat.N2Nat.id. reflexivity.
    + intros x. destruct (dense_eval_total O HT l x) as (v & Ev). exists v. split; [exact Ev|]. apply (dense_eval_value O R den L), Ev.
    + unfold vec_ok, len in Hv. destruct Hd as [Hd _]. assert (n < length l)%nat; [|lia].
      destruct (Nat.lt_ge_cases n (length l)); [assumption|]. exfalso. apply Hd, dcoef_overflow. lia.
  - intros m Hm Hk HU Hd Hn C Hc Hdf. unfold sparse_roots.
    apply (G (scoef R den m)); auto.
    + pose proof (sparse_degree_spec O R den L m (proj1 Hm)) as K. pose proof (is_degree_unique _ _ _ Hd K) as E2.
      destruct (sparse_degree O m) as [|d]; [discriminate|]. injection E2 as ->. rewrite Nnat.N2Nat.id. reflexivity.
    + apply (sparse_terms_spec O R den L), Hm.
    + intros x. destruct (sparse_eval_total O HT HU m x) as (v & Ev). exists v. split; [exact Ev|]. apply (sparse_eval_value O R den L); assumption.
Qed.

(** Real coefficients. *)
Theorem C46_real : forall chk cb rnd solver dfuel fuel l n,
  let O := R_num chk in let S := R_rops cb rnd in let P := dcoef R_ring (fun a : R => a) l in
  is_degree P (Some n) -> (4 <= n)%nat -> vec_ok O l -> (n < dfuel)%nat -> (Datatypes.S n < fuel)%nat ->
  (forall pass tl, NoDup (solver pass tl) /\
     forall r : R, In r (solver pass tl) <-> @is_value R_ring (dcoef R_ring (fun a : R => a) (1%R :: tl)) r 0%R) ->
  exists rs, dense_roots O S solver dfuel fuel l = Ok rs /\
    ((exists i, (i < n)%nat /\ P i <> 0%R) -> @root_report R_ring R (fun a => a) P n True rs).
Proof.
  intros chk cb rnd solver dfuel fuel l n O S P Hd Hn Hv Hdf Hf HS.
  assert (HA : forall a, exists b, absv O a = Ok b) by (intros a; cbn; eauto).
  assert (H10 : r1 <> @r0 R_ring) by apply R1_neq_R0.
  destruct (proj1 (C46_terminates R O S R_ring (fun a => a) (R_lawful chk) (R_exact_div chk) (R_total chk) HA H10 solver dfuel fuel n) l Hd Hn Hv Hdf Hf) as (rs & E).
  exists rs. split; [exact E|]. intros C.
  pose proof (proj1 (C46_sound R O S R_ring (fun a => a) (R_lawful chk) (R_exact_div chk) (R_total chk) HA H10 R_domain
    ltac:(intros a b a' b' Hb Ha' Hb'; cbn in *; inv_ok; apply Rltb_false; rewrite Hb, Rabs_R0; apply Rabs_pos)
    solver dfuel fuel n rs
    ltac:(intros pass tl; destruct (HS pass tl) as [H1 H2]; split; [exact H1|]; intros r; apply H2)) l Hd Hn C Hv Hdf E) as K.
  unfold root_report in *. destruct rs; try exact K.
  - intros _. apply K. intros pass tl r. apply HS.
  - destruct K as (K1 & K2 & q & K3 & K4 & K5). split; [exact K1|]. split; [exact K2|]. exists q. split; [exact K3|]. split; [exact K4|].
    intros _. apply K5. intros pass tl r. apply HS.
Qed.

(** ** Too large a degree for a vector *)

Theorem C46_sparse_huge_degree_panics : forall T (O : num T) (S : rops T) solver dfuel fuel m d, swf m ->
  sparse_degree O m = Num d -> (2 <= length (sparse_terms O m))%nat -> (4 <= d <= USIZE_MAX)%N -> (n_max_len O < d + 1)%N -> (1 <= n_max_len O)%N ->
  sparse_roots O S solver dfuel fuel m =
    Panic (if (d <? USIZE_MAX)%N then PCapacity else if n_chk O then POverflow else PIndex).
Proof.
  intros T O S solver dfuel fuel m d Hm Hd H2 H4 Hc H1. unfold sparse_roots.
  pose proof (sparse_terms_decreasing O m (proj1 Hm)) as Dec.
  pose proof (sparse_terms_head O m (proj1 Hm)) as Hh. rewrite Hd in Hh. destruct Hh as (x & rest & E). rewrite E in *.
  destruct rest as [|y rest]; [simpl in H2; lia|].
  unfold find_roots. rewrite (special_ok O S _ Dec). unfold special_spec.
  destruct (N.eqb_spec d 1); [lia|]. destruct (N.eqb_spec d 2); [lia|]. destruct (N.eqb_spec d 3); [lia|].
  cbn [bind]. change (index ((x, d) :: y :: rest) 0) with (Ok (x, d)). cbn [bind].
  destruct (N.ltb_spec d USIZE_MAX) as [Hu|Hu].
  - rewrite uadd_small by lia. cbn [bind]. unfold vec_repeat. destruct (N.leb_spec (d + 1) (n_max_len O)); [lia|]. reflexivity.
  - assert (d = USIZE_MAX) by lia. subst d.
    assert (uadd (n_chk O) USIZE_MAX 1 = if n_chk O then Panic POverflow else Ok 0%N) as -> by (destruct (n_chk O); reflexivity).
    destruct (n_chk O); [reflexivity|]. cbn [bind]. unfold vec_repeat. destruct (N.leb_spec 0 (n_max_len O)); [|lia]. reflexivity.
Qed.

(** ** f32 and f64 *)

Section FloatStart.
Context (f : fty) (powi : flt f -> N -> flt f) (chk : bool).
Notation O := (float_num chk f powi).
Notation F := (flt f).

Lemma float_total : total_ops O.
Proof. split; intros; cbn; eauto. Qed.

Lemma ffill_ok d (c : F) (rest : list (F * N)) : Forall (fun t : F * N => (snd t < d)%N) rest ->
  forall (values : list F) (q : list F), len values = (d + 1)%N -> len q = d ->
  exists values' q', foldM (fill_step O d c) (values, c :: q) rest = Ok (values', c :: q') /\ len values' = (d + 1)%N /\ len q' = d.
Proof.
  induction 1 as [|[x e] rest He _ IH]; intros values q Lv Lq; cbn [foldM]; [eauto|]. cbn [snd] in He.
  unfold fill_step at 1. cbn [fst snd]. rewrite usub_le by lia. cbn [bind div float_num].
  destruct (update_returns values (d - e) (fdiv x c)) as (v' & Ev); [lia|]. rewrite Ev. cbn [bind].
  assert (Lv' : len v' = (d + 1)%N).
  { unfold update in Ev. destruct (_ <? _)%N; [|discriminate]. apply update_nat_spec in Ev.
    destruct Ev as (a & z & b & w & -> & _ & _ & ->). unfold len in *. rewrite app_length in *. exact Lv. }
  assert (En : exists q', update (c :: q) (d - e) (fun _ => Ok x) = Ok (c :: q') /\ len q' = d).
  { destruct (update_returns q (d - e - 1) x) as (q' & Eq); [lia|]. exists q'. unfold update in *.
    destruct (N.ltb_spec (d - e) (len (c :: q))) as [_|H]; [|unfold len in *; cbn [length] in H; lia].
    destruct (d - e - 1 <? len q)%N eqn:Hlt in Eq; [|discriminate Eq]. clear Hlt. replace (N.to_nat (d - e)) with (Datatypes.S (N.to_nat (d - e - 1))) by lia.
    cbn [update_nat]. rewrite Eq. split; [reflexivity|]. apply update_nat_spec in Eq.
    destruct Eq as (a & z & b & w & -> & _ & _ & ->). unfold len in *. rewrite app_length in *. exact Lq. }
  destruct En as (q' & En & Lq'). rewrite En. cbn [bind]. apply IH; assumption.
Qed.

Lemma float_find_start S solver dfuel deg eval fuel (c : F) d u rest : decreasing ((c, d) :: u :: rest) -> (4 <= d)%N ->
  (d + 1 <= n_max_len O)%N ->
  exists values q, values <> [] /\ len q = d /\
    find_roots O S solver dfuel deg eval fuel ((c, d) :: u :: rest) = find_loop O S solver dfuel deg eval fuel 0 values (c :: q) [].
Proof.
  intros Dec H4 Hc.
  assert (Hu : (d + 1 <= USIZE_MAX)%N) by (etransitivity; [exact Hc|]; destruct f; vm_compute; discriminate).
  assert (Fr : Forall (fun t : F * N => (snd t < d)%N) (u :: rest)) by (inversion Dec; assumption).
  destruct (ffill_ok d c (u :: rest) Fr (repeat (zero O) (N.to_nat (d + 1))) (repeat (zero O) (N.to_nat d))) as (values & q & E & Lv & Lq).
  { unfold len. rewrite repeat_length. lia. } { unfold len. rewrite repeat_length. lia. }
  exists values, q. split; [intros ->; unfold len in Lv; simpl in Lv; lia|]. split; [exact Lq|].
  unfold find_roots. rewrite (special_ok O S _ Dec). unfold special_spec.
  destruct (N.eqb_spec d 1); [lia|]. destruct (N.eqb_spec d 2); [lia|]. destruct (N.eqb_spec d 3); [lia|].
  cbn [bind]. change (index ((c, d) :: u :: rest) 0) with (Ok (c, d)). cbn [bind].
  rewrite uadd_small by exact Hu. cbn [bind]. unfold vec_repeat. destruct (N.leb_spec (d + 1) (n_max_len O)); [|lia]. cbn [bind].
  assert (update (repeat (zero O) (N.to_nat (d + 1))) 0 (fun _ => Ok c) = Ok (c :: repeat (zero O) (N.to_nat d))) as ->.
  { replace (N.to_nat (d + 1)) with (Datatypes.S (N.to_nat d)) by lia. reflexivity. }
  cbn [bind]. change (slice_from ((c, d) :: u :: rest) 1) with (Ok (u :: rest)). cbn [bind].
  rewrite E. reflexivity.
Qed.
End FloatStart.

Lemma dense_terms_lead {T} (O : num T) p c d rest : dense_terms O p = Ok ((c, d) :: rest) -> is_zero O c = false.
Proof.
  unfold dense_terms. rewrite slice_from_strip. cbn [bind].
  destruct (strip_split O p) as (_ & _ & _ & _ & Hs).
  destruct (strip O p) as [|x q]; cbn [enum_terms]; intros H; [discriminate|].
  rewrite Hs in H. rewrite usub_le in H by lia. cbn [bind] in H.
  apply bind_ok in H. destruct H as (ts & _ & H). apply Ok_inj in H. injection H as <- <- <-. exact Hs.
Qed.
Lemma sparse_terms_lead {T} (O : num T) (m : bmap T) c d rest : sparse_terms O m = (c, d) :: rest -> is_zero O c = false.
Proof.
  unfold sparse_terms. intros H. assert (In (c, d) ((c, d) :: rest)) as K by (left; reflexivity). rewrite <- H in K.
  apply in_map_iff in K. destruct K as ([k v] & E & K). injection E as <- <-. apply filter_In in K. destruct K as [_ K].
  cbn [snd] in K. destruct (is_zero O v); [discriminate|reflexivity].
Qed.

(** roots() returns after at most deg p passes, or one of its divisions by x - root never ends.
    Holds for every behaviour of the solver, of sqrt, cbrt, powi and round. *)
Theorem C46_float_returns_or_hangs : forall f chk powi sq cb rnd l solver dfuel fuel n,
  let O := float_num chk f powi in let S := float_rops f sq cb rnd l in
  (N.of_nat n + 1 <= n_max_len O)%N -> (n < dfuel)%nat -> (Datatypes.S n < fuel)%nat ->
  (forall p, dense_degree O p = Num (N.of_nat n) ->
     (exists rs, dense_roots O S solver dfuel fuel p = Ok rs) \/ (dense_roots O S solver dfuel fuel p = Fuel /\ hangs f powi chk (Datatypes.S n))) /\
  (forall m, swf m -> sparse_degree O m = Num (N.of_nat n) ->
     (exists rs, sparse_roots O S solver dfuel fuel m = Ok rs) \/ (sparse_roots O S solver dfuel fuel m = Fuel /\ hangs f powi chk (Datatypes.S n))).
Proof.
  intros f chk powi sq cb rnd l solver dfuel fuel n O S Hc Hd Hf.
  assert (G : forall eval (c : flt f) rest, (forall x, exists v, eval x = Ok v) -> decreasing ((c, N.of_nat n) :: rest) -> is_zero O c = false ->
    (exists rs, find_roots O S solver dfuel (Num (N.of_nat n)) eval fuel ((c, N.of_nat n) :: rest) = Ok rs) \/
    (find_roots O S solver dfuel (Num (N.of_nat n)) eval fuel ((c, N.of_nat n) :: rest) = Fuel /\ hangs f powi chk (Datatypes.S n)) \/ (n <= 3)%nat).
  { intros eval c rest He Dec Zc. destruct (Nat.le_gt_cases n 3) as [|Hn]; [right; right; assumption|].
    destruct rest as [|u rest].
    { left. unfold find_roots. rewrite (special_ok O S _ Dec). eexists. reflexivity. }
    destruct (float_find_start f powi chk S solver dfuel (Num (N.of_nat n)) eval fuel c (N.of_nat n) u rest Dec ltac:(lia) Hc) as (values & q & Nv & Lq & E).
    unfold O. rewrite E. unfold len in Lq. assert (Lq' : length q = n) by lia.
    destruct (floop_ok f powi chk S solver eval n He dfuel fuel 0 values (c :: q) [] Nv) as [K|[K1 K2]].
    - right. split; [exists c, q; split; [reflexivity|]; split; [exact Zc|lia]|]. unfold vec_ok, len. cbn [length]. rewrite Lq'. unfold O in Hc. lia.
    - cbn [length]. lia.
    - cbn [length]. lia.
    - left. exact K.
    - right. left. split; [exact K1|]. cbn [length] in K2. rewrite Lq' in K2. exact K2. }
  destruct (C45_float_returns f chk powi sq cb rnd l solver dfuel fuel) as [LD LS]. split.
  - intros p Hp. destruct (dense_terms_decreasing O p) as (ts & E & Dec).
    pose proof (dense_terms_head O p ts E) as Hh. rewrite Hp in Hh. destruct Hh as (c & rest & ->).
    destruct (G (dense_eval O p) c rest) as [K|[K|K]].
    + intros x. apply dense_eval_total, float_total.
    + exact Dec.
    + exact (dense_terms_lead O p c _ rest E).
    + left. unfold dense_roots. rewrite E. cbn [bind]. rewrite Hp. exact K.
    + right. unfold dense_roots. rewrite E. cbn [bind]. rewrite Hp. exact K.
    + left. apply LD. fold O. rewrite Hp. cbn. lia.
  - intros m Hm Hp. pose proof (sparse_terms_decreasing O m (proj1 Hm)) as Dec.
    pose proof (sparse_terms_head O m (proj1 Hm)) as Hh. rewrite Hp in Hh. destruct Hh as (c & rest & E). rewrite E in Dec.
    destruct (G (sparse_eval O m) c rest) as [K|[K|K]].
    + intros x. apply sparse_eval_total; [apply float_total|]. intros a e. eexists. reflexivity.
    + exact Dec.
    + exact (sparse_terms_lead O m c _ rest E).
    + left. unfold sparse_roots. rewrite E, Hp. exact K.
    + right. unfold sparse_roots. rewrite E, Hp. exact K.
    + left. apply LS; [exact Hm|]. fold O. rewrite Hp. cbn. lia.
Qed.

(** Exactly when a division by x - root never ends: synthetic division of c x^n + ... by
    x - root meets an infinite or NaN coefficient before the remainder. *)
Theorem C46_float_deflation_ends_iff : forall f chk powi root c q,
  let O := float_num chk f powi in is_zero O c = false -> (2 <= length q)%nat -> vec_ok O (c :: q) ->
  (synth_finite f powi chk root c q <-> exists k w, deflate O k (c :: q) root = Ok w) /\
  (~ synth_finite f powi chk root c q <-> forall k, deflate O k (c :: q) root = Fuel).
Proof.
  intros f chk powi root c q O Zc Hq Hv. destruct (fdeflate_spec f powi chk root c q Zc ltac:(lia) Hv) as [(L & _)|[(_ & Hs & E)|(_ & Hs & E)]]; [lia| |].
  - destruct (E (Datatypes.S (length q)) ltac:(lia)) as (w & Ew & _). split; split.
    + intros _. eauto. + intros _. exact Hs. + intros K. contradiction. + intros K. unfold O in K. rewrite K in Ew. discriminate.
  - split; split.
    + intros K. contradiction. + intros (k & w & K). unfold O in K. rewrite E in K. discriminate. + intros _. exact E. + intros _. exact Hs.
Qed.

(** Coefficients up to 2^i and roots up to 2^j with i + n (j+1) < 1024 (128 for f32) are safe. *)
Theorem C46_float_deflation_bounded : forall f chk powi root c q i j,
  let O := float_num chk f powi in is_zero O c = false -> (1 <= length q)%nat -> vec_ok O (c :: q) ->
  (0 <= i)%Z -> (0 <= j)%Z -> Forall (fbound f i) (c :: q) -> fbound f j root -> (i + Z.of_nat (length q) * (j + 1) < femax f)%Z ->
  exists w, deflate O (Datatypes.S (length q)) (c :: q) root = Ok w /\ length w = if (length q =? 1)%nat then 0%nat else length q.
Proof.
  intros f chk powi root c q i j O Zc Hq Hv Hi Hj Hb Hr Hm. inversion_clear Hb as [|? ? Hc Hq'].
  destruct (fdeflate_spec f powi chk root c q Zc Hq Hv) as [(L & E)|[(L & Hs & E)|(L & Hs & E)]].
  - exists []. rewrite L. split; [apply E|reflexivity].
  - destruct (E (Datatypes.S (length q)) ltac:(lia)) as (w & Ew & Lw & _). exists w. split; [exact Ew|].
    destruct (Nat.eqb_spec (length q) 1); [lia|exact Lw].
  - exfalso. apply Hs. exact (synth_bounded f powi chk j root q Hj Hr i c Hi Hc Hq' Hm).
Qed.

(** A leading coefficient that is infinite or NaN: roots() never returns, as soon as the solver
    reports one root. *)
Theorem C46_float_nonfinite_leading_hangs : forall f chk powi sq cb rnd l solver p c d u rest dfuel fuel,
  let O := float_num chk f powi in let S := float_rops f sq cb rnd l in
  dense_terms O p = Ok ((c, d) :: u :: rest) -> (4 <= d)%N -> (d + 1 <= n_max_len O)%N -> is_finite c = false ->
  (forall tl, solver 0%nat tl <> []) -> dense_roots O S solver dfuel fuel p = Fuel.
Proof.
  intros f chk powi sq cb rnd l solver p c d u rest dfuel fuel O S E H4 Hc Fc Hs.
  destruct (dense_terms_decreasing O p) as (ts & E' & Dec). rewrite E in E'. apply Ok_inj in E'. subst ts.
  unfold dense_roots. rewrite E. cbn [bind].
  destruct (float_find_start f powi chk S solver dfuel (dense_degree O p) (dense_eval O p) fuel c d u rest Dec H4 Hc) as (values & q & Nv & Lq & Es).
  unfold O in *. rewrite Es. destruct fuel as [|fuel]; [reflexivity|]. cbn [find_loop].
  destruct values as [|v0 tl]; [congruence|]. change (slice_from (v0 :: tl) 1) with (Ok tl). cbn [bind].
  specialize (Hs tl). destruct (solver 0%nat tl) as [|t ts]; [congruence|]. clear Hs. cbn [foldM].
  assert (TR : forall r, take_root (float_num chk f powi) S dfuel (dense_eval (float_num chk f powi) p) (c :: q, []) r = Fuel).
  { intros r. unfold take_root.
    destruct (dense_eval_total _ (float_total f powi chk) p (round S r)) as (ex & ->).
    destruct (dense_eval_total _ (float_total f powi chk) p r) as (er & ->). cbn [bind absv float_num fst snd].
    assert (Zc : is_zero (float_num chk f powi) c = false) by (exact (dense_terms_lead _ p c d _ E)).
    unfold len in Lq. set (r' := if _ : bool then _ else _).
    destruct (fdeflate_spec f powi chk r' c q Zc) as [(L & _)|[(_ & Hs & _)|(_ & _ & K)]]; try lia.
    - unfold vec_ok, len. cbn [length]. unfold O in Hc. lia.
    - exfalso. destruct q as [|y q]; [simpl in Lq; lia|]. destruct Hs as [Hs _]. congruence.
    - cbn [float_num] in K. rewrite K. reflexivity. }
  rewrite TR. reflexivity.
Qed.

(** x^4 + x is finite, but if the solver reports 2^600 as a root, roots() never returns (f64,
    with any round that keeps 2^600, which is an integer). *)
Definition c46_poly : list (flt F64) := map (f_of_Z F64) [1; 0; 0; 1; 0]%Z.
Definition c46_solver (pass : nat) (_ : list (flt F64)) : list (flt F64) := [f_of_Z F64 (2 ^ 600)].

Theorem C46_float_termination_refuted : forall powi sq cb rnd l, rnd (f_of_Z F64 (2 ^ 600)) = f_of_Z F64 (2 ^ 600) ->
  exists p solver,
  Forall (fun x : flt F64 => is_finite x = true) p /\ (forall pass tl, Forall (fun x : flt F64 => is_finite x = true) (solver pass tl)) /\
  forall chk dfuel fuel, dense_roots (float_num chk F64 powi) (float_rops F64 sq cb rnd l) solver dfuel fuel p = Fuel.
Proof.
  intros powi sq cb rnd l Hr. exists c46_poly, c46_solver.
  split; [repeat constructor; vm_compute; reflexivity|]. split; [intros; repeat constructor; vm_compute; reflexivity|].
  intros chk dfuel fuel. set (O := float_num chk F64 powi). set (S := float_rops F64 sq cb rnd l).
  assert (A : is_zero O (f_of_Z F64 1) = false) by (vm_compute; reflexivity).
  assert (B : is_zero O (f_of_Z F64 0) = true) by (vm_compute; reflexivity).
  assert (H : forall a z : flt F64, is_zero O a = false -> is_zero O z = true ->
    exists values, values <> [] /\ dense_roots O S c46_solver dfuel fuel [a; z; z; a; z] =
      find_loop O S c46_solver dfuel (dense_degree O [a; z; z; a; z]) (dense_eval O [a; z; z; a; z]) fuel 0 values [a; zero O; zero O; a; zero O] []).
  { clear. intros a z Ha Hz. unfold dense_roots.
    assert (dense_terms O [a; z; z; a; z] = Ok [(a, 4%N); (a, 1%N)]) as ->.
    { unfold dense_terms. rewrite slice_from_strip. unfold strip, fnz. rewrite Ha. cbn [skipn bind]. unfold len. cbn [length].
      unfold enum_terms. rewrite Ha, Hz. destruct chk; reflexivity. }
    cbn [bind]. eexists. split; [|unfold find_roots; cbn [find_roots_special bind]; destruct chk; reflexivity]. discriminate. }
  destruct (H _ _ A B) as (values & Nv & E). change c46_poly with [f_of_Z F64 1; f_of_Z F64 0; f_of_Z F64 0; f_of_Z F64 1; f_of_Z F64 0].
  rewrite E. clear E H. destruct fuel as [|fuel]; [reflexivity|]. cbn [find_loop].
  destruct values as [|v0 tl]; [congruence|]. change (slice_from (v0 :: tl) 1) with (Ok tl). cbn [bind].
  assert (TR : forall p, take_root O S dfuel (dense_eval O p) ([f_of_Z F64 1; zero O; zero O; f_of_Z F64 1; zero O], []) (f_of_Z F64 (2 ^ 600)) = Fuel).
  { intros p. unfold take_root. replace (round S (f_of_Z F64 (2 ^ 600))) with (f_of_Z F64 (2 ^ 600)) by (symmetry; exact Hr).
    destruct (dense_eval_total _ (float_total F64 powi chk) p (f_of_Z F64 (2 ^ 600))) as (ex & Ex). fold O in Ex. rewrite Ex. cbn [bind].
    change (absv O ex) with (Ok (Babs ex)). cbn [bind fst snd].
    match goal with |- context [deflate _ _ _ (if ?b then ?x else ?x)] => replace (if b then x else x) with x by (destruct b; reflexivity) end.
    assert (V : vec_ok O [f_of_Z F64 1; zero O; zero O; f_of_Z F64 1; zero O]) by (unfold vec_ok, len; cbn [length]; vm_compute; discriminate).
    assert (NF : ~ synth_finite F64 powi chk (f_of_Z F64 (2 ^ 600)) (f_of_Z F64 1) [zero O; zero O; f_of_Z F64 1; zero O]).
    { intros (_ & _ & K & _). assert (E : (true = false)); [|discriminate E]. rewrite <- K. vm_compute. reflexivity. }
    destruct (fdeflate_spec F64 powi chk (f_of_Z F64 (2 ^ 600)) (f_of_Z F64 1) [zero O; zero O; f_of_Z F64 1; zero O] A ltac:(cbn [length]; lia) V)
      as [(K & _)|[(_ & K & _)|(_ & _ & K)]]; [exfalso; clear - K; cbn [length] in K; lia|contradiction|].
    fold O in K. rewrite K. reflexivity. }
  change (c46_solver 0 tl) with [f_of_Z F64 (2 ^ 600)]. cbn [foldM]. rewrite TR. reflexivity.
Qed.

(** ** Cases meeting the hypotheses *)

Definition Qc_rops : rops Qc := {|
  abs_sqrt := fun a => Ok a; cbrt := fun a => Ok a; of_u8 := fun n => Q2Qc (inject_Z (Z.of_N n)); round := fun x => x;
  lt := fun a b => if Qclt_le_dec a b then true else false |}.
(** A solver that tries the integers from -3 to 3. *)
Definition small_roots (pass : nat) (tl : list Qc) : list Qc :=
  filter (fun r => match dense_eval Qc_num (1%Qc :: tl) r with Ok v => Qc_eqb v 0%Qc | _ => false end)
    (map (fun z => Q2Qc (inject_Z z)) [-3; -2; -1; 0; 1; 2; 3]%Z).

Example C46_sound_case : forall pass tl, NoDup (small_roots pass tl) /\
  forall r, In r (small_roots pass tl) -> @is_value Qc_ring (dcoef Qc_ring (fun a => a) (1%Qc :: tl)) r 0%Qc.
Proof.
  intros pass tl. split.
  - apply NoDup_filter. repeat constructor; vm_compute; intuition discriminate.
  - intros r H. apply filter_In in H. destruct H as [_ H]. destruct (dense_eval Qc_num (1%Qc :: tl) r) as [v| |] eqn:E; try discriminate.
    apply Qc_eqb_iff in H. subst v. apply (dense_eval_value Qc_num Qc_ring (fun a => a) Qc_lawful) in E. exact E.
Qed.

(** (x-1)^2 (x-2) (x+3) and (x-1)(x+1)(x^2+1). *)
Example C46_report_case :
  let z := map (fun k => Q2Qc (inject_Z k)) in let q := map (fun k => Qnum (this k)) in
  (match dense_roots Qc_num Qc_rops small_roots 9 9 (z [1; -1; -7; 13; -6]%Z) with Ok (ManyRealRoots l) => q l = [-3; 1; 2; 1]%Z | _ => False end) /\
  (match dense_roots Qc_num Qc_rops small_roots 9 9 (z [1; 0; 0; 0; -1]%Z) with Ok (OnlyRealRoots l) => q l = [-1; 1]%Z | _ => False end).
Proof. vm_compute. split; reflexivity. Qed.

(** The synthetic division of x^4 + 3x^3 + 2 by x - 2 stays finite. *)
Example C46_float_case : forall powi chk,
  synth_finite F64 powi chk (f_of_Z F64 2) (f_of_Z F64 1) (map (f_of_Z F64) [3; 0; 0; 2]%Z) /\
  let p := map (f_of_Z F64) [1; 3; 0; 0; 2]%Z in dense_degree (float_num chk F64 powi) p = Num 4.
Proof. intros powi chk. split; vm_compute; repeat split. Qed.

Example C46_huge_case : let O := int_num true I32 in let m := [(0%N, mk_int I32 1); (2 ^ 63, mk_int I32 1)%N] in
  swf m /\ sparse_degree O m = Num (2 ^ 63) /\ length (sparse_terms O m) = 2%nat /\ (n_max_len O < 2 ^ 63 + 1)%N /\ (1 <= n_max_len O)%N.
Proof.
  cbv zeta. split; [split; [repeat constructor|repeat constructor; vm_compute; congruence]|].
  split; [vm_compute; reflexivity|]. split; [vm_compute; reflexivity|]. split; [reflexivity|vm_compute; discriminate].
Qed.

Print Assumptions C46_terminates.
Print Assumptions C46_sound.
Print Assumptions C46_real.
Print Assumptions C46_sparse_huge_degree_panics.
Print Assumptions C46_float_returns_or_hangs.
Print Assumptions C46_float_deflation_ends_iff.
Print Assumptions C46_float_deflation_bounded.
Print Assumptions C46_float_nonfinite_leading_hangs.
Print Assumptions C46_float_termination_refuted.
