(** Which formula root finding uses for small degrees, for every coefficient type. *)

From Coq Require Import List NArith ZArith Lia Bool Arith Sorted.
From Coq Require Import ZifyBool ZifyNat ZifyN.
From Verif Require Import Base Num Spec SpecFacts Laws Terms Dense DenseFacts Sparse SparseFacts Roots.
Import ListNotations.

(** Terms in strictly decreasing order of degree. *)
Definition decreasing {T} (ts : list (T * N)) : Prop := StronglySorted (fun a b : T * N => (snd b < snd a)%N) ts.

(** The coefficient of degree [k] in a list of terms. *)
Definition coef_at {T} (O : num T) (ts : list (T * N)) (k : N) : T :=
  match find (fun t => N.eqb (snd t) k) ts with Some t => fst t | None => zero O end.

(** The same roots, as a list. *)
Definition listed {T} (r : res (roots T)) : res (option (roots T)) :=
  rs <- r ;;
  match rs with
  | TwoRealRoots a b => Ok (Some (ManyRealRoots [a; b]))
  | ThreeRealRoots a b c => Ok (Some (ManyRealRoots [a; b; c]))
  | TwoComplexRoots a b => Ok (Some (ManyComplexRoots [a; b]))
  | ThreeComplexRoots a b c => Ok (Some (ManyComplexRoots [a; b; c]))
  | _ => Panic PUnreachable
  end.

Section Special.
Context {T : Type} (O : num T) (S : rops T).

Lemma trinomial_shape a b c r : trinomial_roots O S a b c = Ok r ->
  (exists x y, r = TwoRealRoots x y) \/ (exists x y, r = TwoComplexRoots x y).
Proof.
  unfold trinomial_roots. intros H. inv_ok. destruct (is_zero O v); inv_ok; eauto.
  destruct (is_pos O v); inv_ok; eauto.
Qed.

Lemma cubic_shape a b c d r : cubic_roots O S a b c d = Ok r ->
  (exists x y z, r = ThreeRealRoots x y z) \/ (exists x y z, r = ThreeComplexRoots x y z).
Proof.
  unfold cubic_roots. intros H. repeat (apply bind_ok in H; destruct H as (? & _ & H)).
  match type of H with (match ?y with _ => _ end) = _ => destruct y end; inv_ok; try discriminate; eauto.
Qed.

Lemma listed_trinomial a b c :
  (rs <- trinomial_roots O S a b c ;;
   match rs with
   | TwoComplexRoots a b => Ok (Some (ManyComplexRoots [a; b]))
   | TwoRealRoots a b => Ok (Some (ManyRealRoots [a; b]))
   | _ => Panic PUnreachable
   end) = listed (trinomial_roots O S a b c).
Proof.
  unfold listed. destruct (trinomial_roots O S a b c) as [r| |] eqn:E; [|reflexivity|reflexivity]. cbn [bind].
  destruct (trinomial_shape _ _ _ _ E) as [(? & ? & ->)|(? & ? & ->)]; reflexivity.
Qed.

Lemma listed_cubic a b c d :
  (rs <- cubic_roots O S a b c d ;;
   match rs with
   | ThreeComplexRoots a b c => Ok (Some (ManyComplexRoots [a; b; c]))
   | ThreeRealRoots a b c => Ok (Some (ManyRealRoots [a; b; c]))
   | _ => Panic PUnreachable
   end) = listed (cubic_roots O S a b c d).
Proof.
  unfold listed. destruct (cubic_roots O S a b c d) as [r| |] eqn:E; [|reflexivity|reflexivity]. cbn [bind].
  destruct (cubic_shape _ _ _ _ _ E) as [(? & ? & ? & ->)|(? & ? & ? & ->)]; reflexivity.
Qed.

(** The formula chosen: by the number of terms and the degree only. *)
Definition special_spec (ts : list (T * N)) : res (option (roots T)) :=
  match ts with
  | [] => Ok (Some InfiniteRoots)
  | [(_, k)] => Ok (Some (if (k =? 0)%N then NoRoots else ManyRealRoots [zero O]))
  | (_, k) :: _ =>
    if (k =? 1)%N then n <- neg O (coef_at O ts 0) ;; r <- div O n (coef_at O ts 1) ;; Ok (Some (ManyRealRoots [r]))
    else if (k =? 2)%N then listed (trinomial_roots O S (coef_at O ts 2) (coef_at O ts 1) (coef_at O ts 0))
    else if (k =? 3)%N then listed (cubic_roots O S (coef_at O ts 3) (coef_at O ts 2) (coef_at O ts 1) (coef_at O ts 0))
    else Ok None
  end.

Lemma dec_cons (t u : T * N) ts : decreasing (t :: u :: ts) -> (snd u < snd t)%N /\ decreasing (u :: ts).
Proof. intros H. inversion_clear H as [|? ? H1 H2]. inversion H2; subst. auto. Qed.

Lemma special_ok ts : decreasing ts -> find_roots_special O S ts = special_spec ts.
Proof.
  intros H. destruct ts as [|[a k] ts]; [reflexivity|].
  destruct ts as [|[b l] ts].
  { unfold find_roots_special, special_spec. destruct k as [|k]; [reflexivity|].
    destruct k as [[k|k|]|[k|k|]|]; reflexivity. }
  apply dec_cons in H. cbn [snd] in H. destruct H as [Hlk H].
  destruct (N.le_gt_cases k 3) as [Hk|Hk].
  - destruct ts as [|[c m] ts].
    + assert (K : (k = 1 /\ l = 0 \/ k = 2 /\ l = 0 \/ k = 2 /\ l = 1 \/ k = 3 /\ l = 0 \/ k = 3 /\ l = 1 \/ k = 3 /\ l = 2)%N) by lia.
      destruct K as [[-> ->]|[[-> ->]|[[-> ->]|[[-> ->]|[[-> ->]|[-> ->]]]]]]; try reflexivity;
        unfold special_spec, find_roots_special, coef_at; cbn -[trinomial_roots cubic_roots listed];
        first [apply listed_trinomial|apply listed_cubic].
    + apply dec_cons in H. cbn [snd] in H. destruct H as [Hml H].
      destruct ts as [|[d n] ts].
      * assert (K : (k = 2 /\ l = 1 /\ m = 0 \/ k = 3 /\ l = 1 /\ m = 0 \/ k = 3 /\ l = 2 /\ m = 0 \/ k = 3 /\ l = 2 /\ m = 1)%N) by lia.
        destruct K as [(-> & -> & ->)|[(-> & -> & ->)|[(-> & -> & ->)|(-> & -> & ->)]]];
          unfold special_spec, find_roots_special, coef_at; cbn -[trinomial_roots cubic_roots listed];
          first [apply listed_trinomial|apply listed_cubic].
      * apply dec_cons in H. cbn [snd] in H. destruct H as [Hnm H].
        assert (K : (k = 3 /\ l = 2 /\ m = 1 /\ n = 0)%N) by lia. destruct K as (-> & -> & -> & ->).
        destruct ts as [|[e o] ts].
        -- unfold special_spec, find_roots_special, coef_at; cbn -[trinomial_roots cubic_roots listed]. apply listed_cubic.
        -- apply dec_cons in H. cbn [snd] in H. lia.
  - unfold special_spec. destruct (N.eqb_spec k 1); [lia|]. destruct (N.eqb_spec k 2); [lia|]. destruct (N.eqb_spec k 3); [lia|].
    destruct k as [|k]; [lia|]. destruct k as [[k|k|]|[k|k|]|]; try lia; destruct ts; reflexivity.
Qed.

(** *** Terms come in decreasing order, whatever the coefficients. *)
Lemma enum_decreasing deg l : forall i ts, (len l <= deg + 1 - N.of_nat i)%N -> enum_terms O deg i l = Ok ts ->
  decreasing ts /\ Forall (fun t : T * N => (snd t <= deg - N.of_nat i)%N) ts.
Proof.
  unfold len. induction l as [|c l IH]; intros i ts Hl H; cbn [enum_terms] in H.
  - inv_ok. split; constructor.
  - cbn [length] in Hl. destruct (is_zero O c).
    + destruct (IH (Datatypes.S i) ts) as [D F]; [lia|exact H|]. split; [exact D|].
      eapply Forall_impl; [|exact F]. cbn beta. intros t. lia.
    + rewrite usub_le in H by lia. cbn [bind] in H. inv_ok. destruct (IH (Datatypes.S i) v) as [D F]; [lia|exact E|].
      split.
      * constructor; [exact D|]. destruct l as [|c2 l].
        { cbn [enum_terms] in E. inv_ok. constructor. }
        eapply Forall_impl; [|exact F]. cbn [snd]. cbn [length] in Hl. intros t. lia.
      * constructor; [cbn [snd]; lia|]. eapply Forall_impl; [|exact F]. cbn beta. intros t. lia.
Qed.

Lemma enum_returns deg l : forall i, (len l <= deg + 1 - N.of_nat i)%N -> exists ts, enum_terms O deg i l = Ok ts.
Proof.
  unfold len. induction l as [|c l IH]; intros i Hl; cbn [enum_terms]; [eauto|]. cbn [length] in Hl.
  destruct (IH (Datatypes.S i) ltac:(lia)) as (ts & E). destruct (is_zero O c); [eauto|].
  rewrite usub_le by lia. cbn [bind]. rewrite E. cbn [bind]. eauto.
Qed.

Lemma dense_terms_decreasing p : exists ts, dense_terms O p = Ok ts /\ decreasing ts.
Proof.
  unfold dense_terms. rewrite slice_from_strip. cbn [bind].
  destruct (enum_returns (len (strip O p) - 1) (strip O p) 0) as (ts & E); [lia|].
  exists ts. split; [exact E|]. eapply enum_decreasing; [|exact E]. lia.
Qed.

Lemma sparse_terms_decreasing (m : bmap T) : StronglySorted key_lt m -> decreasing (sparse_terms O m).
Proof.
  intros Hs. unfold sparse_terms, decreasing.
  assert (A : forall f (l : list (N * T)), StronglySorted (fun a b => key_lt b a) l -> StronglySorted (fun a b => key_lt b a) (filter f l)).
  { intros f l H. induction H as [|x l H IH HF]; simpl; [constructor|]. destruct (f x); [|exact IH]. constructor; [exact IH|].
    rewrite Forall_forall in *. intros y Hy. apply filter_In in Hy. apply HF, Hy. }
  assert (B : StronglySorted (fun a b : N * T => key_lt b a) (rev m)).
  { clear A. induction Hs as [|x l H IH HF]; simpl; [constructor|].
    revert IH. rewrite Forall_forall in HF. assert (HF' : forall y, In y (rev l) -> key_lt x y) by (intros y Hy; apply HF, in_rev, Hy).
    revert HF'. generalize (rev l) as q. induction q as [|y q IHq]; intros HF' IH; simpl; [constructor; constructor|].
    inversion_clear IH as [|? ? I1 I2]. constructor.
    - apply IHq; [intros z Hz; apply HF'; right; exact Hz|exact I1].
    - apply Forall_app. split; [exact I2|]. constructor; [|constructor]. apply HF'. left. reflexivity. }
  specialize (A (fun kv => negb (is_zero O (snd kv))) _ B). revert A. generalize (filter (fun kv => negb (is_zero O (snd kv))) (rev m)) as l.
  induction l as [|x l IH]; intros H; simpl; [constructor|]. inversion_clear H as [|? ? H1 H2]. constructor; [apply IH, H1|].
  rewrite Forall_forall in *. intros y Hy. apply in_map_iff in Hy. destruct Hy as (z & <- & Hz). apply (H2 z Hz).
Qed.

(** *** No path to unreachable!() *)
Definition quiet {A} (m : res A) : Prop := m <> Panic PUnreachable.

Lemma bind_quiet {A B} (m : res A) (f : A -> res B) : quiet m -> (forall a, quiet (f a)) -> quiet (bind m f).
Proof. destruct m; simpl; intros H1 H2; [apply H2|intros K; injection K as ->; apply H1; reflexivity|discriminate]. Qed.

(** The arithmetic itself does not call unreachable!(). *)
Record quiet_ops : Prop := {
  q_add : forall a b, quiet (add O a b); q_sub : forall a b, quiet (sub O a b); q_mul : forall a b, quiet (mul O a b);
  q_div : forall a b, quiet (div O a b); q_neg : forall a, quiet (neg O a);
  q_sqrt : forall a, quiet (abs_sqrt S a); q_cbrt : forall a, quiet (cbrt S a) }.

Context (Q : quiet_ops).
Ltac q := repeat (apply bind_quiet; [|intros ?]); try apply Q; try discriminate.

Lemma trinomial_quiet a b c : quiet (trinomial_roots O S a b c).
Proof.
  unfold trinomial_roots, discriminant_trinomial. q. destruct (is_zero O a0); [discriminate|]. q. destruct (is_pos O a0); q.
Qed.

Lemma cubic_quiet a b c d : quiet (cubic_roots O S a b c d).
Proof.
  unfold cubic_roots, cub, sqr. do 31 (apply bind_quiet; [q|intros ?]).
  intros H. match type of H with bind ?m _ = _ => destruct m as [r| |] eqn:E; cbn [bind] in H end.
  - destruct (trinomial_shape _ _ _ _ E) as [(? & ? & ->)|(? & ? & ->)]; discriminate.
  - injection H as ->. exact (trinomial_quiet _ _ _ E).
  - discriminate.
Qed.

Lemma special_quiet ts : decreasing ts -> quiet (find_roots_special O S ts).
Proof.
  intros H. rewrite (special_ok ts H). unfold special_spec.
  assert (L2 : forall a b c, quiet (listed (trinomial_roots O S a b c))).
  { intros a b c. unfold listed, quiet. destruct (trinomial_roots O S a b c) as [r|k|] eqn:E; cbn [bind]; [|intros K; injection K as ->; exact (trinomial_quiet _ _ _ E)|discriminate].
    destruct (trinomial_shape _ _ _ _ E) as [(? & ? & ->)|(? & ? & ->)]; discriminate. }
  assert (L3 : forall a b c d, quiet (listed (cubic_roots O S a b c d))).
  { intros a b c d. unfold listed, quiet. destruct (cubic_roots O S a b c d) as [r|k|] eqn:E; cbn [bind]; [|intros K; injection K as ->; exact (cubic_quiet _ _ _ _ E)|discriminate].
    destruct (cubic_shape _ _ _ _ _ E) as [(? & ? & ? & ->)|(? & ? & ? & ->)]; discriminate. }
  destruct ts as [|[a k] [|u ts]]; try discriminate.
  destruct (k =? 1)%N; [q|]. destruct (k =? 2)%N; [apply L2|]. destruct (k =? 3)%N; [apply L3|discriminate].
Qed.
End Special.
