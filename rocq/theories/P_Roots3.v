(** Property C45: roots() for degrees up to 3 and single terms. *)

From Coq Require Import List NArith ZArith Lia Bool Ring Arith Sorted.
From Coq Require Import ZifyBool ZifyNat ZifyN.
From Verif Require Import Base Num Spec SpecFacts Laws Terms Dense DenseFacts Sparse SparseFacts Roots RootSpecial.
From Verif Require Import Floats P_Roots2.
Import ListNotations.

(** As many-root lists, which is how roots() reports. *)
Definition many {T} (r : res (roots T)) : res (roots T) :=
  rs <- r ;;
  match rs with
  | TwoRealRoots a b => Ok (ManyRealRoots [a; b])
  | ThreeRealRoots a b c => Ok (ManyRealRoots [a; b; c])
  | TwoComplexRoots a b => Ok (ManyComplexRoots [a; b])
  | ThreeComplexRoots a b c => Ok (ManyComplexRoots [a; b; c])
  | _ => Panic PUnreachable
  end.

Section Listing.
Context {T : Type} (O : num T) (S : rops T) (R : comring) (den : T -> car R) (L : lawful O R den).
Context (solver : nat -> list T -> list T) (dfuel fuel : nat) (deg : degree) (eval : T -> res T).
Notation dt := (dterms R den).

Lemma dt_decreasing ts : StronglySorted (fun a b : car R * N => (snd b < snd a)%N) (dt ts) -> decreasing ts.
Proof.
  unfold decreasing. induction ts as [|t ts IH]; intros H; [constructor|]. cbn [dterms map] in H. inversion_clear H as [|? ? H1 H2].
  constructor; [apply IH, H1|]. rewrite Forall_forall in *. intros u Hu. apply (H2 (den (fst u), snd u)). apply in_map_iff. exists u. auto.
Qed.

Lemma coef_at_den (p : poly R) ts k : is_listing p (dt ts) -> den (coef_at O ts k) = p (N.to_nat k).
Proof.
  intros (Hs & _ & Hc). rewrite <- Hc. clear Hc. unfold coef_at. induction ts as [|[c d] ts IH].
  - cbn. apply (lw_zero _ _ _ L).
  - cbn [dterms map terms_coef find fst snd] in *. inversion_clear Hs as [|? ? Hs' Hb]. unfold padd, pmono.
    destruct (N.eqb_spec d k) as [->|Hd].
    + rewrite Nat.eqb_refl. rewrite terms_coef_notin; [cbn [fst]; symmetry; apply radd_0_r|].
      rewrite Nnat.N2Nat.id. intros Hin. apply in_map_iff in Hin. destruct Hin as (x & Ex & Hx).
      rewrite Forall_forall in Hb. specialize (Hb x Hx). cbn [snd] in Hb. lia.
    + destruct (Nat.eqb_spec (N.to_nat k) (N.to_nat d)); [lia|]. rewrite radd_0_l. apply IH, Hs'.
Qed.

Notation fr vals := (find_roots O S solver dfuel deg eval fuel vals).

Lemma fr_special ts : decreasing ts -> forall rs, special_spec O S ts = Ok (Some rs) -> fr ts = Ok rs.
Proof. intros H rs E. unfold find_roots. rewrite (special_ok O S ts H), E. reflexivity. Qed.

Lemma fr_zero p ts : is_listing p (dt ts) -> peq p pzero -> fr ts = Ok InfiniteRoots.
Proof.
  intros H Hp. assert (dt ts = []).
  { eapply is_listing_unique; [exact H|]. apply is_listing_nil, Hp. }
  destruct ts; [|discriminate]. reflexivity.
Qed.

Lemma fr_mono p ts c k : is_listing p (dt ts) -> c <> r0 -> peq p (pmono c (N.to_nat k)) ->
  fr ts = Ok (if (k =? 0)%N then NoRoots else ManyRealRoots [zero O]).
Proof.
  intros H Hc Hp. assert (E : dt ts = [(c, k)]).
  { eapply is_listing_unique; [exact H|]. split; [constructor; constructor|]. split; [constructor; [exact Hc|constructor]|].
    intros d. rewrite Hp. cbn [terms_coef]. unfold padd, pzero. apply radd_0_r. }
  destruct ts as [|[x d] [|]]; try discriminate. injection E as _ ->. apply fr_special; [constructor; constructor|]. reflexivity.
Qed.

Lemma fr_formula p ts n : is_listing p (dt ts) -> is_degree p (Some n) -> (exists i, (i < n)%nat /\ p i <> r0) ->
  forall c0 c1 c2 c3, den c0 = p 0%nat -> den c1 = p 1%nat -> den c2 = p 2%nat -> den c3 = p 3%nat ->
  (n = 1%nat -> fr ts = (m <- neg O c0 ;; r <- div O m c1 ;; Ok (ManyRealRoots [r]))) /\
  (n = 2%nat -> fr ts = many (trinomial_roots O S c2 c1 c0)) /\
  (n = 3%nat -> fr ts = many (cubic_roots O S c3 c2 c1 c0)).
Proof.
  intros H Hd (i & Hi & Hpi) c0 c1 c2 c3 E0 E1 E2 E3.
  assert (CA : forall k c, den c = p (N.to_nat k) -> coef_at O ts k = c).
  { intros k c E. apply (lw_inj _ _ _ L). rewrite E. apply coef_at_den, H. }
  assert (C0 := CA 0%N c0 E0). assert (C1 := CA 1%N c1 E1). assert (C2 := CA 2%N c2 E2). assert (C3 := CA 3%N c3 E3). clear CA.
  assert (Dec : decreasing ts) by (apply dt_decreasing, H).
  assert (Sh : exists x y rest, ts = (x, N.of_nat n) :: y :: rest).
  { pose proof (is_listing_degree p (dt ts) H) as K.
    destruct ts as [|[x k] ts]; [exfalso; apply Hpi; destruct H as (_ & _ & H); rewrite <- H; reflexivity|].
    cbn [dterms map fst snd] in K. pose proof (is_degree_unique _ _ _ Hd K) as E. injection E as ->. rewrite Nnat.N2Nat.id in *.
    destruct ts as [|y rest]; [|eauto]. exfalso. apply Hpi. destruct H as (_ & _ & H). rewrite <- H. cbn [dterms map terms_coef fst snd].
    unfold padd, pmono, pzero. destruct (Nat.eqb_spec i (N.to_nat k)); [lia|]. apply radd_0_r. }
  destruct Sh as (x & y & rest & ->). unfold find_roots. rewrite (special_ok O S _ Dec). unfold special_spec. rewrite C0, C1, C2, C3.
  assert (LM : forall r, (sp <- listed r ;; match sp with Some rs => Ok rs | None => @Fuel (roots T) end) = many r).
  { intros r. unfold listed, many. destruct r as [r| |]; [|reflexivity|reflexivity]. destruct r; reflexivity. }
  split; [|split]; intros ->; cbn -[trinomial_roots cubic_roots listed many].
  - destruct (neg O c0) as [m| |]; cbn [bind]; try reflexivity. destruct (div O m c1); reflexivity.
  - unfold listed, many. destruct (trinomial_roots O S c2 c1 c0) as [r| |]; [|reflexivity|reflexivity]. destruct r; reflexivity.
  - unfold listed, many. destruct (cubic_roots O S c3 c2 c1 c0) as [r| |]; [|reflexivity|reflexivity]. destruct r; reflexivity.
Qed.
End Listing.

(** The zero polynomial has all points as roots, a non-zero constant none, and any other
    single term only 0. *)
Theorem C45_classify : forall T (O : num T) (S : rops T) R den, lawful O R den -> forall solver dfuel fuel,
  (forall l, peq (dcoef R den l) pzero -> dense_roots O S solver dfuel fuel l = Ok InfiniteRoots) /\
  (forall l c k, c <> r0 -> peq (dcoef R den l) (pmono c k) ->
     dense_roots O S solver dfuel fuel l = Ok (if Nat.eqb k 0 then NoRoots else ManyRealRoots [zero O])) /\
  (forall m, swf m -> peq (scoef R den m) pzero -> sparse_roots O S solver dfuel fuel m = Ok InfiniteRoots) /\
  (forall m c k, swf m -> c <> r0 -> peq (scoef R den m) (pmono c k) ->
     sparse_roots O S solver dfuel fuel m = Ok (if Nat.eqb k 0 then NoRoots else ManyRealRoots [zero O])).
Proof.
  intros T O S R den L solver dfuel fuel.
  assert (KE : forall k, Nat.eqb k 0 = (N.of_nat k =? 0)%N) by (intros [|k]; reflexivity).
  split; [|split; [|split]].
  - intros l Hl. unfold dense_roots. destruct (dense_terms_spec O R den L l) as (ts & -> & H & _). cbn [bind]. eapply fr_zero; eassumption.
  - intros l c k Hc Hl. unfold dense_roots. destruct (dense_terms_spec O R den L l) as (ts & -> & H & _). cbn [bind]. rewrite KE.
    eapply fr_mono; [exact H|exact Hc|]. rewrite Nnat.Nat2N.id. exact Hl.
  - intros m Hm Hl. unfold sparse_roots. eapply fr_zero; [|exact Hl]. apply (sparse_terms_spec O R den L), Hm.
  - intros m c k Hm Hc Hl. unfold sparse_roots. rewrite KE.
    eapply fr_mono; [apply (sparse_terms_spec O R den L), Hm|exact Hc|]. rewrite Nnat.Nat2N.id. exact Hl.
Qed.

(** With two or more terms, degrees 1 to 3 use the linear, quadratic and cubic formulas on the
    polynomial's own coefficients. *)
Theorem C45_formula : forall T (O : num T) (S : rops T) R den, lawful O R den -> forall solver dfuel fuel,
  forall n c0 c1 c2 c3,
  (forall l, is_degree (dcoef R den l) (Some n) -> (exists i, (i < n)%nat /\ dcoef R den l i <> r0) ->
     den c0 = dcoef R den l 0 -> den c1 = dcoef R den l 1 -> den c2 = dcoef R den l 2 -> den c3 = dcoef R den l 3 ->
     (n = 1%nat -> dense_roots O S solver dfuel fuel l = (m <- neg O c0 ;; r <- div O m c1 ;; Ok (ManyRealRoots [r]))) /\
     (n = 2%nat -> dense_roots O S solver dfuel fuel l = many (trinomial_roots O S c2 c1 c0)) /\
     (n = 3%nat -> dense_roots O S solver dfuel fuel l = many (cubic_roots O S c3 c2 c1 c0))) /\
  (forall b, swf b -> is_degree (scoef R den b) (Some n) -> (exists i, (i < n)%nat /\ scoef R den b i <> r0) ->
     den c0 = scoef R den b 0 -> den c1 = scoef R den b 1 -> den c2 = scoef R den b 2 -> den c3 = scoef R den b 3 ->
     (n = 1%nat -> sparse_roots O S solver dfuel fuel b = (m <- neg O c0 ;; r <- div O m c1 ;; Ok (ManyRealRoots [r]))) /\
     (n = 2%nat -> sparse_roots O S solver dfuel fuel b = many (trinomial_roots O S c2 c1 c0)) /\
     (n = 3%nat -> sparse_roots O S solver dfuel fuel b = many (cubic_roots O S c3 c2 c1 c0))).
Proof.
  intros T O S R den L solver dfuel fuel n c0 c1 c2 c3. split.
  - intros l Hd Hi E0 E1 E2 E3. unfold dense_roots. destruct (dense_terms_spec O R den L l) as (ts & -> & H & _). cbn [bind].
    eapply fr_formula; eassumption.
  - intros b Hb Hd Hi E0 E1 E2 E3. unfold sparse_roots. eapply fr_formula; try eassumption. apply (sparse_terms_spec O R den L), Hb.
Qed.

(** ** unreachable!() is not reached, for any arithmetic *)

Lemma fr_quiet {T} (O : num T) (S : rops T) solver dfuel fuel deg eval ts : quiet_ops O S -> decreasing ts ->
  Forall (fun t : T * N => (snd t <= 3)%N) ts -> quiet (find_roots O S solver dfuel deg eval fuel ts).
Proof.
  intros Q D F. pose proof (special_quiet O S Q ts D) as K. unfold find_roots, quiet in *.
  destruct (find_roots_special O S ts) as [[rs|]|k|] eqn:E; cbn [bind]; try discriminate.
  - exfalso. rewrite (special_ok O S ts D) in E. unfold special_spec in E.
    destruct ts as [|[a k] [|u ts]]; try discriminate. inversion_clear F as [|? ? Hk _]. cbn [snd] in Hk.
    destruct (N.eqb_spec k 1); [inv_ok; discriminate|]. destruct (N.eqb_spec k 2); [|destruct (N.eqb_spec k 3)].
    + unfold listed in E. apply bind_ok in E. destruct E as (r & _ & E). destruct r; discriminate.
    + unfold listed in E. apply bind_ok in E. destruct E as (r & _ & E). destruct r; discriminate.
    + assert (k = 0)%N by lia. subst k. inversion_clear D as [|? ? _ D2]. inversion_clear D2 as [|? ? D3 _]. cbn [snd] in D3. lia.
  - intros K'. injection K' as ->. apply K. reflexivity.
Qed.

Lemma decreasing_head {T} (t : T * N) ts : decreasing (t :: ts) -> Forall (fun u : T * N => (snd u <= snd t)%N) (t :: ts).
Proof. intros H. inversion_clear H as [|? ? _ H2]. constructor; [lia|]. eapply Forall_impl; [|exact H2]. cbn beta. intros u. lia. Qed.

Lemma dense_terms_head {T} (O : num T) p ts : dense_terms O p = Ok ts ->
  match dense_degree O p with NegInf => ts = [] | Num d => exists c rest, ts = (c, d) :: rest end.
Proof.
  unfold dense_terms. rewrite slice_from_strip, dense_degree_strip. cbn [bind].
  destruct (strip_split O p) as (_ & _ & _ & _ & Hs).
  destruct (strip O p) as [|c q]; cbn [enum_terms]; intros H; [inv_ok; reflexivity|].
  rewrite Hs in H. rewrite usub_le in H by lia. cbn [bind] in H. inv_ok.
  exists c, v. f_equal. f_equal. unfold len. cbn [length]. lia.
Qed.

Lemma sparse_terms_head {T} (O : num T) (m : bmap T) : StronglySorted key_lt m ->
  match sparse_degree O m with NegInf => sparse_terms O m = [] | Num d => exists c rest, sparse_terms O m = (c, d) :: rest end.
Proof.
  intros Hs. pose proof (sparse_degree_split O m Hs) as H.
  assert (Z : forall l : bmap T, Forall (fun kv => is_zero O (snd kv) = true) l -> filter (fun kv => negb (is_zero O (snd kv))) l = []).
  { induction 1 as [|x l Hx _ IH]; [reflexivity|]. simpl. rewrite Hx. exact IH. }
  unfold sparse_terms. destruct (sparse_degree O m) as [|d].
  - rewrite Z; [reflexivity|]. apply Forall_rev, H.
  - destruct H as (m1 & c & m2 & -> & Hc & Hz). rewrite rev_app_distr. cbn [rev]. rewrite <- app_assoc, filter_app, Z by (apply Forall_rev, Hz).
    cbn [app filter snd]. rewrite Hc. cbn [negb map fst snd]. eauto.
Qed.

Definition at_most (g : degree) (n : N) : Prop := match g with NegInf => True | Num d => (d <= n)%N end.

Theorem C45_never_unreachable : forall T (O : num T) (S : rops T) solver dfuel fuel, quiet_ops O S ->
  (forall l, at_most (dense_degree O l) 3 -> dense_roots O S solver dfuel fuel l <> Panic PUnreachable) /\
  (forall m, swf m -> at_most (sparse_degree O m) 3 -> sparse_roots O S solver dfuel fuel m <> Panic PUnreachable).
Proof.
  intros T O S solver dfuel fuel Q. split.
  - intros l Hd. unfold dense_roots. destruct (dense_terms_decreasing O l) as (ts & E & D). rewrite E. cbn [bind].
    apply fr_quiet; [exact Q|exact D|]. pose proof (dense_terms_head O l ts E) as Hh.
    destruct (dense_degree O l) as [|d]; [subst ts; constructor|]. destruct Hh as (c & rest & ->). cbn in Hd.
    eapply Forall_impl; [|apply decreasing_head, D]. cbn [snd]. intros u. lia.
  - intros m [Hs _] Hd. unfold sparse_roots. apply fr_quiet; [exact Q|apply sparse_terms_decreasing, Hs|].
    pose proof (sparse_terms_decreasing O m Hs) as D. pose proof (sparse_terms_head O m Hs) as Hh.
    destruct (sparse_degree O m) as [|d]; [rewrite Hh; constructor|]. destruct Hh as (c & rest & E). rewrite E in *. cbn in Hd.
    eapply Forall_impl; [|apply decreasing_head, D]. cbn [snd]. intros u. lia.
Qed.

(** f32/f64 with arbitrary sqrt, cbrt and round functions: for degree at most 3 roots() always
    returns. *)
Definition float_rops (f : fty) (sq cb rnd : flt f -> flt f) (l : flt f -> flt f -> bool) : rops (flt f) := {|
  abs_sqrt := fun a => Ok (sq a); cbrt := fun a => Ok (cb a);
  of_u8 := fun n => f_of_Z f (Z.of_N n); round := rnd; lt := l |}.

Theorem C45_float_returns : forall f chk powi sq cb rnd l solver dfuel fuel,
  let O := float_num chk f powi in let S := float_rops f sq cb rnd l in
  (forall p, at_most (dense_degree O p) 3 -> exists rs, dense_roots O S solver dfuel fuel p = Ok rs) /\
  (forall m, swf m -> at_most (sparse_degree O m) 3 -> exists rs, sparse_roots O S solver dfuel fuel m = Ok rs).
Proof.
  intros f chk powi sq cb rnd l solver dfuel fuel O S.
  assert (T2 : forall a b c, exists r, trinomial_roots O S a b c = Ok r).
  { intros a b c. unfold trinomial_roots, discriminant_trinomial, O, S. cbn [bind mul sub add neg div one zero abs_sqrt cbrt of_u8 float_num float_rops].
    destruct (is_zero _ _); [eauto|]. destruct (is_pos _ _); eauto. }
  assert (T3 : forall a b c d, exists r, cubic_roots O S a b c d = Ok r).
  { intros a b c d. unfold cubic_roots, cub, sqr, O, S. cbn [bind mul sub add neg div one zero abs_sqrt cbrt of_u8 float_num float_rops].
    match goal with |- context [trinomial_roots _ _ ?x ?y ?z] => destruct (T2 x y z) as (r & E) end.
    pose proof E as E'. unfold O, S in E'. rewrite E'. cbn [bind].
    destruct (trinomial_shape O S _ _ _ _ E) as [(? & ? & ->)|(? & ? & ->)]; eauto. }
  assert (G : forall deg eval ts, decreasing ts -> Forall (fun t : flt f * N => (snd t <= 3)%N) ts ->
    exists rs, find_roots O S solver dfuel deg eval fuel ts = Ok rs).
  { intros deg eval ts D F. unfold find_roots. rewrite (special_ok O S ts D). unfold special_spec.
    destruct ts as [|[a k] [|u ts]]; [eexists; reflexivity| |].
    - eexists; reflexivity.
    - inversion_clear F as [|? ? Hk _]. cbn [snd] in Hk.
      destruct (N.eqb_spec k 1); [eexists; reflexivity|]. destruct (N.eqb_spec k 2); [|destruct (N.eqb_spec k 3)].
      + match goal with |- context [trinomial_roots _ _ ?x ?y ?z] => destruct (T2 x y z) as (r & E) end. rewrite E.
        destruct (trinomial_shape O S _ _ _ _ E) as [(? & ? & ->)|(? & ? & ->)]; cbn [listed bind]; eauto.
      + match goal with |- context [cubic_roots O S ?x ?y ?z ?w] => destruct (T3 x y z w) as (r & E) end. rewrite E.
        destruct (cubic_shape O S _ _ _ _ _ E) as [(? & ? & ? & ->)|(? & ? & ? & ->)]; cbn [listed bind]; eauto.
      + assert (k = 0)%N by lia. subst k. inversion_clear D as [|? ? _ D2]. inversion_clear D2 as [|? ? D3 _]. cbn [snd] in D3. lia. }
  split.
  - intros p Hd. unfold dense_roots. destruct (dense_terms_decreasing O p) as (ts & E & D). rewrite E. cbn [bind].
    apply G; [exact D|]. pose proof (dense_terms_head O p ts E) as Hh.
    destruct (dense_degree O p) as [|d]; [subst ts; constructor|]. destruct Hh as (c & rest & ->). cbn in Hd.
    eapply Forall_impl; [|apply decreasing_head, D]. cbn [snd]. intros u. lia.
  - intros m [Hs _] Hd. unfold sparse_roots. apply G; [apply sparse_terms_decreasing, Hs|].
    pose proof (sparse_terms_decreasing O m Hs) as D. pose proof (sparse_terms_head O m Hs) as Hh.
    destruct (sparse_degree O m) as [|d]; [rewrite Hh; constructor|]. destruct Hh as (c & rest & E). rewrite E in *. cbn in Hd.
    eapply Forall_impl; [|apply decreasing_head, D]. cbn [snd]. intros u. lia.
Qed.

Print Assumptions C45_classify.
Print Assumptions C45_formula.
Print Assumptions C45_never_unreachable.
Print Assumptions C45_float_returns.

(** x^2 - 4, x^7, 5 and 0 over i32. *)
Example C45_case :
  let O := int_num true I32 in let S := int_rops true I32 67 in let z := map (mk_int I32) in
  let r := fun l => dense_roots O S (fun _ _ => []) 0 0 (z l) in
  match r [1; 0; -4]%Z with Ok (ManyRealRoots l) => map ival l = [2; -2]%Z | _ => False end /\
  match r [3; 0; 0; 0; 0; 0; 0; 0]%Z with Ok (ManyRealRoots l) => map ival l = [0]%Z | _ => False end /\
  match r [5]%Z with Ok NoRoots => True | _ => False end /\ match r [0]%Z with Ok InfiniteRoots => True | _ => False end.
Proof. vm_compute. repeat split; reflexivity. Qed.
