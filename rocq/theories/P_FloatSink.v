(** Property C110: accumulating float polynomials into a sink. *)

From Coq Require Import List NArith ZArith Lia Bool Arith Sorted.
From Coq Require Import ZifyBool ZifyNat ZifyN.
From Flocq Require Import IEEE754.BinarySingleNaN.
From Verif Require Import Base Num Spec Laws Terms Dense DenseFacts DenseArith DenseMut Sparse SparseFacts PolyMath.
From Verif Require Import SparseCalc MutFacts Floats FloatFacts FloatErr FloatCoef Coef P_Struct P_FloatText P_FloatMut P_FloatMirror P_FloatPolyPow FloatSparse P_FloatSparsePow.
Import ListNotations.
Local Open Scope nat_scope.

(** ** Specification: p_d q_0, p_(d-1) q_1, ..., p_0 q_d added to [acc] one after the other *)

Definition convolve {f} (p q : nat -> flt f) (d : nat) (acc : flt f) : flt f :=
  fold_left (fun t k => fadd t (fmul (p k) (q (d - k)))) (rev (seq 0 (S d))) acc.

(** Terms accumulated at one degree. *)
Definition ffold {f} (op : flt f -> flt f -> flt f) (d : nat) (ts : list (flt f * N)) (acc : flt f) : flt f :=
  fold_left (fun a t => if (snd t =? N.of_nat d)%N then op a (fst t) else a) ts acc.

Section Sink.
Context (chk : bool) (f : fty) (powi : flt f -> N -> flt f).
Notation O := (float_num chk f powi).
Notation z := (fzero f).

Lemma ffold_look op (g : flt f -> flt f) e d ts : StronglySorted (fun a b => (snd b < snd a)%N) ts -> forall acc,
  ffold op d (map (fun t => (g (fst t), (e + snd t)%N)) ts) acc =
  if (e <=? N.of_nat d)%N then match look (N.of_nat d - e) ts with Some c => op acc (g c) | None => acc end else acc.
Proof.
  induction 1 as [|[c k] ts S IH H]; intros acc.
  - cbn. destruct (e <=? N.of_nat d)%N; reflexivity.
  - unfold ffold in *. cbn [map fold_left fst snd]. rewrite IH. unfold look. cbn [map m_get fst snd].
    destruct (N.leb_spec e (N.of_nat d)) as [He|He].
    + destruct (N.eqb_spec (N.of_nat d - e) k) as [Ek|Ek].
      * replace (e + k =? N.of_nat d)%N with true by lia. fold (look (N.of_nat d - e) ts).
        rewrite (look_bound O eq_refl (N.of_nat d - e) ts k); [reflexivity| |lia]. rewrite Forall_forall in *. intros t Ht. apply (H t Ht).
      * replace (e + k =? N.of_nat d)%N with false by lia. reflexivity.
    + replace (e + k =? N.of_nat d)%N with false by lia. reflexivity.
Qed.

Lemma look_lists p ts d : lists_of O p ts -> look d ts = if feqb (p (N.to_nat d)) z then None else Some (p (N.to_nat d)).
Proof.
  intros [S H]. assert (L : forall c, In (c, d) ts -> look d ts = Some c).
  { clear H. induction S as [|[c k] ts S IH Hf]; intros c' Hin; [destruct Hin|]. unfold look. cbn [map m_get fst snd]. destruct Hin as [E|Hin].
    - injection E as -> ->. rewrite N.eqb_refl. reflexivity.
    - rewrite Forall_forall in Hf. specialize (Hf _ Hin). cbn [snd] in Hf. replace (d =? k)%N with false by lia. apply IH, Hin. }
  destruct (feqb (p (N.to_nat d)) z) eqn:E.
  - destruct (look d ts) as [c|] eqn:El; [|reflexivity]. exfalso. unfold look in El. apply m_get_in in El. apply in_map_iff in El.
    destruct El as ([c' k] & E1 & E2). cbn in E1. injection E1 as -> ->. apply H in E2. destruct E2 as [-> K]. cbn in K. congruence.
  - apply L, H. auto.
Qed.

Lemma ffold_lists op (g : flt f -> flt f) e p ts d acc : lists_of O p ts ->
  ffold op d (map (fun t => (g (fst t), (e + snd t)%N)) ts) acc =
  if (e <=? N.of_nat d)%N && negb (feqb (p (d - N.to_nat e)) z) then op acc (g (p (d - N.to_nat e))) else acc.
Proof.
  intros H. rewrite ffold_look by apply H. rewrite (look_lists p ts _ H). replace (N.to_nat (N.of_nat d - e)) with (d - N.to_nat e) by lia.
  destruct (e <=? N.of_nat d)%N; [|reflexivity]. destruct (feqb (p (d - N.to_nat e)) z); reflexivity.
Qed.

Lemma ffold_terms op p ts d acc : lists_of O p ts -> ffold op d ts acc = if feqb (p d) z then acc else op acc (p d).
Proof.
  intros H. pose proof (ffold_lists op (fun x => x) 0%N p ts d acc H) as K. cbn [N.leb andb] in K.
  rewrite (map_ext _ (fun t => t)), map_id in K by (intros []; reflexivity). rewrite K.
  replace (0 <=? N.of_nat d)%N with true by lia. rewrite Nat.sub_0_r. destruct (feqb (p d) z); reflexivity.
Qed.

(** ** Any sink whose calls are accepted *)
Section Generic.
Context {P : Type} (S : mutpoly (flt f) P) (inv : P -> Prop) (rd : P -> nat -> flt f) (okd : N -> Prop) (err : try_add_err).
Context (HS : fstep S inv rd okd fsame (fun _ _ => true) err).

Lemma ffold_same (op : flt f -> flt f -> flt f) d ts : (forall x y c, fsame x y -> fsame (op x c) (op y c)) -> forall x y, fsame x y -> fsame (ffold op d ts x) (ffold op d ts y).
Proof.
  intros Ho. unfold ffold. induction ts as [|t ts IH]; intros x y H; cbn [fold_left]; [exact H|]. apply IH. destruct (snd t =? N.of_nat d)%N; auto.
Qed.

Lemma add_terms ts : forall p, inv p -> Forall (fun t => okd (snd t)) ts ->
  exists r, apply_terms (s_add S) ts p = Ok (r, None) /\ inv r /\ forall d, fsame (rd r d) (ffold fadd d ts (rd p d)).
Proof.
  induction ts as [|[c k] ts IH]; intros p Hp Hk.
  - exists p. split; [reflexivity|]. split; [exact Hp|]. intros d. apply fsame_refl.
  - inversion Hk as [|? ? K1 K2]; subst. destruct (HS p c k Hp K1) as [(r & E & Ir & Cr) _]. cbn [apply_terms]. rewrite E. cbn [bind snd fst].
    destruct (IH r Ir K2) as (r' & E' & I' & C'). exists r'. split; [exact E'|]. split; [exact I'|]. intros d. eapply fsame_trans; [apply C'|].
    unfold ffold. cbn [fold_left fst snd]. apply (ffold_same fadd d ts (@fadd_same f)). apply Cr.
Qed.

Lemma sub_terms ts : forall p, inv p -> Forall (fun t => okd (snd t)) ts ->
  exists r, apply_terms (s_sub S) ts p = Ok (r, None) /\ inv r /\ forall d, fsame (rd r d) (ffold fsub d ts (rd p d)).
Proof.
  induction ts as [|[c k] ts IH]; intros p Hp Hk.
  - exists p. split; [reflexivity|]. split; [exact Hp|]. intros d. apply fsame_refl.
  - inversion Hk as [|? ? K1 K2]; subst. destruct (HS p c k Hp K1) as [_ (r & E & Ir & Cr)]. cbn [apply_terms]. rewrite E. cbn [bind snd fst].
    destruct (IH r Ir K2) as (r' & E' & I' & C'). exists r'. split; [exact E'|]. split; [exact I'|]. intros d. eapply fsame_trans; [apply C'|].
    unfold ffold. cbn [fold_left fst snd]. apply (ffold_same fsub d ts (@fsub_same f)). apply Cr.
Qed.

Lemma add_listed q ts p : inv p -> lists_of O q ts -> Forall (fun t => okd (snd t)) ts ->
  exists r, add_poly S ts p = Ok (r, None) /\ inv r /\ forall d, fsame (rd r d) (fadd (rd p d) (q d)).
Proof.
  intros Hp Hq Hk. destruct (add_terms ts p Hp Hk) as (r & E & Ir & C). exists r. split; [exact E|]. split; [exact Ir|].
  intros d. eapply fsame_trans; [apply C|]. rewrite (ffold_terms fadd q ts d _ Hq). destruct (feqb (q d) z) eqn:Ez; [|apply fsame_refl].
  destruct (q d) as [s|[]| |[] ? ? ?]; try discriminate Ez. apply fadd_zero_r.
Qed.

Lemma sub_listed q ts p : inv p -> lists_of O q ts -> Forall (fun t => okd (snd t)) ts ->
  exists r, sub_poly S ts p = Ok (r, None) /\ inv r /\ forall d, fsame (rd r d) (fsub (rd p d) (q d)).
Proof.
  intros Hp Hq Hk. destruct (sub_terms ts p Hp Hk) as (r & E & Ir & C). exists r. split; [exact E|]. split; [exact Ir|].
  intros d. eapply fsame_trans; [apply C|]. rewrite (ffold_terms fsub q ts d _ Hq). destruct (feqb (q d) z) eqn:Ez; [|apply fsame_refl].
  destruct (q d) as [s|[]| |[] ? ? ?]; try discriminate Ez. apply fsub_zero_r.
Qed.

(** Several polynomials, one after the other. *)
Lemma add_all qs tss : Forall2 (lists_of O) qs tss -> Forall (Forall (fun t => okd (snd t))) tss -> forall p, inv p ->
  exists r, poly_add_into S tss p = Ok (r, None) /\ inv r /\ forall d, fsame (rd r d) (fold_left (fun a q => fadd a (q d)) qs (rd p d)).
Proof.
  induction 1 as [|q ts qs tss Hq _ IH]; intros Hk p Hp.
  - exists p. split; [reflexivity|]. split; [exact Hp|]. intros d. apply fsame_refl.
  - inversion Hk as [|? ? K1 K2]; subst. destruct (add_listed q ts p Hp Hq K1) as (r & E & Ir & C).
    destruct (IH K2 r Ir) as (r' & E' & I' & C'). exists r'. unfold poly_add_into, add_poly in *. cbn [apply_all]. rewrite E. cbn [bind fst snd]. rewrite E'. cbn [bind fst snd].
    split; [reflexivity|]. split; [exact I'|]. intros d. eapply fsame_trans; [apply C'|]. cbn [fold_left].
    assert (G : forall x y, fsame x y -> fsame (fold_left (fun a (q : nat -> flt f) => fadd a (q d)) qs x) (fold_left (fun a q => fadd a (q d)) qs y)).
    { clear. induction qs as [|q qs IH]; intros x y H; cbn [fold_left]; [exact H|]. apply IH, fadd_same, H. }
    apply G, C.
Qed.

Lemma sub_all qs tss : Forall2 (lists_of O) qs tss -> Forall (Forall (fun t => okd (snd t))) tss -> forall p, inv p ->
  exists r, poly_sub_into S tss p = Ok (r, None) /\ inv r /\ forall d, fsame (rd r d) (fold_left (fun a q => fsub a (q d)) qs (rd p d)).
Proof.
  induction 1 as [|q ts qs tss Hq _ IH]; intros Hk p Hp.
  - exists p. split; [reflexivity|]. split; [exact Hp|]. intros d. apply fsame_refl.
  - inversion Hk as [|? ? K1 K2]; subst. destruct (sub_listed q ts p Hp Hq K1) as (r & E & Ir & C).
    destruct (IH K2 r Ir) as (r' & E' & I' & C'). exists r'. unfold poly_sub_into, sub_poly in *. cbn [apply_all]. rewrite E. cbn [bind fst snd]. rewrite E'. cbn [bind fst snd].
    split; [reflexivity|]. split; [exact I'|]. intros d. eapply fsame_trans; [apply C'|]. cbn [fold_left].
    assert (G : forall x y, fsame x y -> fsame (fold_left (fun a (q : nat -> flt f) => fsub a (q d)) qs x) (fold_left (fun a q => fsub a (q d)) qs y)).
    { clear. induction qs as [|q qs IH]; intros x y H; cbn [fold_left]; [exact H|]. apply IH, fsub_same, H. }
    apply G, C.
Qed.

(** Products. *)
Lemma row_terms rc rk ts : forall p, inv p -> Forall (fun t => okd (rk + snd t)%N /\ (rk + snd t <= USIZE_MAX)%N) ts ->
  exists r, mul_row O S rc rk ts p = Ok (r, None) /\ inv r /\
    forall d, fsame (rd r d) (ffold fadd d (map (fun t => (fmul rc (fst t), (rk + snd t)%N)) ts) (rd p d)).
Proof.
  induction ts as [|[c k] ts IH]; intros p Hp Hk.
  - exists p. split; [reflexivity|]. split; [exact Hp|]. intros d. apply fsame_refl.
  - inversion Hk as [|? ? [K1 K1'] K2]; subst. cbn [snd] in *. cbn [mul_row]. change (mul O rc c) with (@Ok (flt f) (fmul rc c)). cbn [bind].
    rewrite uadd_small by exact K1'. cbn [bind].
    destruct (HS p (fmul rc c) (rk + k)%N Hp K1) as [(r & E & Ir & Cr) _]. rewrite E. cbn [bind snd fst].
    destruct (IH r Ir K2) as (r' & E' & I' & C'). exists r'. split; [exact E'|]. split; [exact I'|]. intros d. eapply fsame_trans; [apply C'|].
    unfold ffold. cbn [map fold_left fst snd]. apply (ffold_same fadd d _ (@fadd_same f)). apply Cr.
Qed.

Definition row_step (q : nat -> flt f) (d : nat) (acc : flt f) (t : flt f * N) : flt f :=
  if (snd t <=? N.of_nat d)%N && negb (feqb (q (d - N.to_nat (snd t))) z) then fadd acc (fmul (fst t) (q (d - N.to_nat (snd t)))) else acc.

Lemma row_step_same q d t x y : fsame x y -> fsame (row_step q d x t) (row_step q d y t).
Proof. intros H. unfold row_step. destruct (_ && _); [apply fadd_same, H|exact H]. Qed.

Lemma rows_terms q tq : lists_of O q tq -> forall tp p, inv p ->
  Forall (fun t => Forall (fun s => okd (snd t + snd s)%N /\ (snd t + snd s <= USIZE_MAX)%N) tq) tp ->
  exists r, mul_poly_vec O S tp tq p = Ok (r, None) /\ inv r /\ forall d, fsame (rd r d) (fold_left (row_step q d) tp (rd p d)).
Proof.
  intros Hq. induction tp as [|[c k] tp IH]; intros p Hp Hk.
  - exists p. split; [reflexivity|]. split; [exact Hp|]. intros d. apply fsame_refl.
  - inversion Hk as [|? ? K1 K2]; subst. cbn [snd] in K1. destruct (row_terms c k tq p Hp K1) as (r & E & Ir & C).
    cbn [mul_poly_vec]. rewrite E. cbn [bind fst snd]. destruct (IH r Ir K2) as (r' & E' & I' & C'). exists r'. split; [exact E'|]. split; [exact I'|].
    intros d. eapply fsame_trans; [apply C'|]. cbn [fold_left].
    assert (G : forall x y, fsame x y -> fsame (fold_left (row_step q d) tp x) (fold_left (row_step q d) tp y)).
    { clear. induction tp as [|t tp IH]; intros x y H; cbn [fold_left]; [exact H|]. apply IH, row_step_same, H. }
    apply G. eapply fsame_trans; [apply C|]. rewrite (ffold_lists fadd (fmul c) k q tq d _ Hq). unfold row_step. cbn [fst snd]. apply fsame_refl.
Qed.
End Generic.

(** ** The order of the products *)
Section Order.
Context (p q : nat -> flt f) (Fp : forall k, is_finite (p k) = true) (Fq : forall k, is_finite (q k) = true).

Definition cstep (d : nat) (acc : flt f) (k : nat) : flt f := if (k <=? d)%nat then fadd acc (fmul (p k) (q (d - k))) else acc.

Lemma fold_same {A} (st : flt f -> A -> flt f) l : (forall x y a, fsame x y -> fsame (st x a) (st y a)) ->
  forall x y, fsame x y -> fsame (fold_left st l x) (fold_left st l y).
Proof. intros Hs. induction l as [|a l IH]; intros x y H; cbn [fold_left]; [exact H|]. apply IH, Hs, H. Qed.

Lemma cstep_same d x y k : fsame x y -> fsame (cstep d x k) (cstep d y k).
Proof. intros H. unfold cstep. destruct (k <=? d)%nat; [apply fadd_same, H|exact H]. Qed.

Lemma zero_prod_l (x y : flt f) : feqb x z = true -> is_finite y = true -> exists s, fmul x y = B754_zero s.
Proof.
  intros Hx Hy. destruct x as [s|[]| |[] ? ? ?]; try discriminate Hx. destruct y as [t| | |t ? ? ?]; try discriminate Hy; eexists; reflexivity.
Qed.
Lemma zero_prod_r (x y : flt f) : feqb y z = true -> is_finite x = true -> exists s, fmul x y = B754_zero s.
Proof.
  intros Hy Hx. destruct y as [s|[]| |[] ? ? ?]; try discriminate Hy. destruct x as [t| | |t ? ? ?]; try discriminate Hx; eexists; reflexivity.
Qed.

Lemma cstep_zero d acc k : feqb (p k) z = true \/ feqb (q (d - k)) z = true \/ (d < k)%nat -> fsame (cstep d acc k) acc.
Proof.
  intros H. unfold cstep. destruct (Nat.leb_spec k d) as [Hk|Hk]; [|apply fsame_refl].
  destruct H as [H|[H|H]]; [| |lia].
  - destruct (zero_prod_l _ _ H (Fq (d - k))) as [s ->]. apply fsame_sym, fadd_zero_r.
  - destruct (zero_prod_r _ _ H (Fp k)) as [s ->]. apply fsame_sym, fadd_zero_r.
Qed.

Lemma fold_extra d n m acc : (forall k, (n <= k < n + m)%nat -> forall x, fsame (cstep d x k) x) ->
  fsame (fold_left (cstep d) (rev (seq 0 (n + m))) acc) (fold_left (cstep d) (rev (seq 0 n)) acc).
Proof.
  revert acc. induction m as [|m IH]; intros acc H; [rewrite Nat.add_0_r; apply fsame_refl|].
  replace (n + S m) with (S (n + m)) by lia. rewrite seq_S, rev_app_distr. cbn [rev app fold_left Nat.add].
  eapply fsame_trans; [|apply IH; intros k Hk; apply H; lia]. apply fold_same; [intros; apply cstep_same; assumption|]. apply H. lia.
Qed.

Lemma fold_convolve d n acc : (forall k, (n <= k)%nat -> feqb (p k) z = true) ->
  fsame (fold_left (cstep d) (rev (seq 0 n)) acc) (convolve p q d acc).
Proof.
  intros Hz. assert (E : convolve p q d acc = fold_left (cstep d) (rev (seq 0 (S d))) acc).
  { unfold convolve. assert (G : forall l, (forall k, In k l -> (k <= d)%nat) -> forall x,
      fold_left (fun t k => fadd t (fmul (p k) (q (d - k)))) l x = fold_left (cstep d) l x).
    { induction l as [|k l IH]; intros Hl x; [reflexivity|]. cbn [fold_left]. rewrite IH by (intros; apply Hl; right; assumption).
      f_equal. unfold cstep. replace (k <=? d)%nat with true; [reflexivity|]. symmetry. apply Nat.leb_le, Hl. left. reflexivity. }
    apply G. intros k Hk. apply in_rev, in_seq in Hk. lia. }
  rewrite E. set (m := Nat.max n (S d)).
  eapply fsame_trans; [apply fsame_sym; replace m with (n + (m - n)) by lia; apply fold_extra|].
  - intros k Hk x. apply cstep_zero. left. apply Hz. lia.
  - replace (n + (m - n)) with (S d + (m - S d)) by lia. apply fold_extra. intros k Hk x. apply cstep_zero. right. right. lia.
Qed.

(** Terms listed highest degree first. *)
Lemma rows_convolve tp d acc : lists_of O p tp -> fsame (fold_left (row_step q d) tp acc) (convolve p q d acc).
Proof.
  intros [S H].
  assert (B : exists n, Forall (fun t => (N.to_nat (snd t) < n)%nat) tp).
  { clear -S. destruct S as [|t ts S F]; [exists 0; constructor|]. exists (Datatypes.S (N.to_nat (snd t))). constructor; [lia|].
    rewrite Forall_forall in *. intros x Hx. specialize (F x Hx). cbn in F. lia. }
  destruct B as [n Hn]. eapply fsame_trans; [|apply (fold_convolve d n)].
  2:{ intros k Hk. destruct (feqb (p k) z) eqn:E; [reflexivity|]. exfalso. assert (K : In (p k, N.of_nat k) tp) by (apply H; rewrite Nat2N.id; auto).
      rewrite Forall_forall in Hn. specialize (Hn _ K). cbn [snd] in Hn. lia. }
  assert (H' : forall c k, In (c, k) tp <-> (c = p (N.to_nat k) /\ is_zero O c = false) /\ (N.to_nat k < n)%nat).
  { intros c k. rewrite <- H. split; [|tauto]. intros K. split; [exact K|]. rewrite Forall_forall in Hn. apply (Hn _ K). }
  clear H Hn. revert tp S H' acc. induction n as [|n IH]; intros tp S H acc.
  - destruct tp as [|[c k] tp]; [apply fsame_refl|]. exfalso. destruct (proj1 (H c k) (or_introl eq_refl)) as [_ K]. lia.
  - rewrite seq_S, rev_app_distr. cbn [rev app fold_left Nat.add]. destruct (feqb (p n) z) eqn:Ez.
    + eapply fsame_trans; [apply (IH tp S)|].
      * intros c k. rewrite H. split; [|intros [K1 K2]; split; [exact K1|lia]]. intros [[K1 K2] K3]. split; [auto|].
        destruct (Nat.eq_dec (N.to_nat k) n) as [E|E]; [|lia]. exfalso. rewrite E in K1. subst c. cbn [is_zero float_num] in K2. congruence.
      * apply fold_same; [intros; apply cstep_same; assumption|]. apply fsame_sym, cstep_zero. auto.
    + assert (K : In (p n, N.of_nat n) tp) by (apply H; rewrite Nat2N.id; split; [auto|lia]).
      destruct S as [|[c k] ts S F]; [destruct K|].
      assert (Ek : (c, k) = (p n, N.of_nat n)).
      { destruct K as [K|K]; [exact K|]. rewrite Forall_forall in F. specialize (F _ K). cbn [snd] in F.
        destruct (proj1 (H c k) (or_introl eq_refl)) as [_ K']. lia. }
      injection Ek as -> ->. cbn [fold_left]. eapply fsame_trans; [apply (IH ts S)|].
      * intros c k. split.
        -- intros Hin. destruct (proj1 (H c k) (or_intror Hin)) as [K1 K2]. split; [exact K1|]. rewrite Forall_forall in F. specialize (F _ Hin). cbn [snd] in F. lia.
        -- intros [K1 K2]. assert (K3 : (N.to_nat k < Datatypes.S n)%nat) by lia. destruct (proj2 (H c k) (conj K1 K3)) as [E|E]; [|exact E]. injection E as _ <-. lia.
      * apply fold_same; [intros; apply cstep_same; assumption|]. unfold row_step. cbn [fst snd]. rewrite Nat2N.id.
        destruct (N.leb_spec (N.of_nat n) (N.of_nat d)) as [Hk|Hk]; cbn [andb].
        -- destruct (feqb (q (d - n)) z) eqn:Eq; cbn [negb].
           ++ apply fsame_sym, cstep_zero. auto.
           ++ unfold cstep. replace (n <=? d)%nat with true by lia. apply fsame_refl.
        -- apply fsame_sym, cstep_zero. right. right. lia.
Qed.
End Order.

(** The products of [*]. *)
Lemma prods_convolve lhs rhs d : (forall k, is_finite (cf z lhs k) = true) -> (forall k, is_finite (cf z rhs k) = true) -> forall acc,
  fsame (dot acc (prods chk f powi rhs lhs d)) (convolve (cf z rhs) (cf z lhs) d acc).
Proof.
  intros Fl Fr acc. eapply fsame_trans; [|apply (fold_convolve _ _ Fr Fl d (length rhs))].
  2:{ intros k Hk. rewrite cf_overflow by exact Hk. reflexivity. }
  revert acc. induction rhs as [|rt rhs IH]; intros acc; [apply fsame_refl|].
  assert (Fr' : forall k, is_finite (cf z rhs k) = true).
  { intros k. specialize (Fr k). destruct (Nat.lt_ge_cases k (length rhs)) as [H|H].
    - rewrite cf_cons in Fr. replace (k =? length rhs)%nat with false in Fr by lia. exact Fr.
    - rewrite cf_overflow by exact H. reflexivity. }
  assert (Ft : is_finite rt = true).
  { specialize (Fr (length rhs)). rewrite cf_cons, Nat.eqb_refl in Fr. exact Fr. }
  cbn [length]. rewrite seq_S, rev_app_distr. cbn [rev app fold_left Nat.add prods].
  assert (Eq : forall x, fold_left (cstep (cf z (rt :: rhs)) (cf z lhs) d) (rev (seq 0 (length rhs))) x =
                        fold_left (cstep (cf z rhs) (cf z lhs) d) (rev (seq 0 (length rhs))) x).
  { assert (G : forall l, (forall k, In k l -> (k < length rhs)%nat) -> forall x,
      fold_left (cstep (cf z (rt :: rhs)) (cf z lhs) d) l x = fold_left (cstep (cf z rhs) (cf z lhs) d) l x).
    { induction l as [|k l IHl]; intros Hl x; [reflexivity|]. cbn [fold_left]. rewrite IHl by (intros; apply Hl; right; assumption). f_equal.
      unfold cstep. rewrite cf_cons. specialize (Hl k (or_introl eq_refl)). replace (k =? length rhs)%nat with false by lia. reflexivity. }
    apply G. intros k Hk. apply in_rev, in_seq in Hk. lia. }
  rewrite Eq. unfold dot. rewrite fold_left_app. fold (@dot f).
  eapply fsame_trans; [apply (IH Fr')|]. apply fold_same; [intros; apply cstep_same; assumption|].
  assert (Ct : cf z (rt :: rhs) (length rhs) = rt) by (rewrite cf_cons, Nat.eqb_refl; reflexivity).
  destruct (is_zero O rt) eqn:Ez; cbn [negb andb].
  - apply fsame_sym, (cstep_zero _ _ Fr Fl). left. rewrite Ct. exact Ez.
  - destruct (Nat.leb_spec (length rhs) d) as [H|H]; cbn [andb].
    + destruct (Nat.ltb_spec d (length rhs + length lhs)) as [H2|H2].
      * unfold cstep. replace (length rhs <=? d)%nat with true by lia. rewrite Ct. apply fsame_refl.
      * apply fsame_sym, (cstep_zero _ _ Fr Fl). right. left. rewrite cf_overflow by lia. reflexivity.
    + apply fsame_sym, (cstep_zero _ _ Fr Fl). right. right. exact H.
Qed.

Lemma convolve_same (p p' q q' : nat -> flt f) d acc : (forall k, fsame (p k) (p' k)) -> (forall k, fsame (q k) (q' k)) ->
  fsame (convolve p q d acc) (convolve p' q' d acc).
Proof.
  intros Hp Hq. unfold convolve. assert (G : forall l x y, fsame x y ->
    fsame (fold_left (fun t k => fadd t (fmul (p k) (q (d - k)))) l x) (fold_left (fun t k => fadd t (fmul (p' k) (q' (d - k)))) l y)).
  { induction l as [|k l IH]; intros x y H; cbn [fold_left]; [exact H|]. apply IH.
    eapply fsame_trans; [apply fadd_same, H|]. rewrite !(fadd_comm y). apply fadd_same, fmul_same; [apply Hp|apply Hq]. }
  apply G, fsame_refl.
Qed.

(** Products of sparse polynomials: lowest degree of the right operand first. *)
Lemma key_get_lt (m : bmap (flt f)) k : (forall kv, In kv m -> (k < fst kv)%N) -> m_get k m = None.
Proof.
  intros H. apply m_get_notin. intros K. apply in_map_iff in K. destruct K as (kv & E & K). specialize (H kv K). lia.
Qed.

Lemma sprods_fold (a rhs : bmap (flt f)) d : (forall k, is_finite (spol O a k) = true) -> (forall k v, In (k, v) rhs -> is_finite v = true) ->
  forall m lo, StronglySorted key_lt rhs -> (forall kv, In kv rhs -> (N.of_nat lo <= fst kv < N.of_nat (lo + m))%N) -> forall acc,
  fsame (dot acc (sprods chk f powi rhs a (N.of_nat d))) (fold_left (cstep (spol O rhs) (spol O a) d) (seq lo m) acc).
Proof.
  intros Fa Fr m lo S. revert m lo. induction S as [|[k v] rhs S IH F]; intros m lo Hk acc.
  - assert (G : forall l x, fsame x (fold_left (cstep (spol O []) (spol O a) d) l x)).
    { induction l as [|k l IHl]; intros x; [apply fsame_refl|]. cbn [fold_left]. eapply fsame_trans; [|apply IHl].
      apply fsame_sym, cstep_zero; [intros j; reflexivity|exact Fa|left; reflexivity]. }
    apply G.
  - assert (Fr' : forall k v, In (k, v) rhs -> is_finite v = true) by (intros k' v' H; apply (Fr k' v'); right; exact H).
    assert (Fv : is_finite v = true) by (apply (Fr k v); left; reflexivity).
    assert (Fb : forall j, is_finite (spol O ((k, v) :: rhs) j) = true).
    { intros j. unfold spol. destruct (m_get (N.of_nat j) ((k, v) :: rhs)) as [w|] eqn:E; [|reflexivity]. apply m_get_in in E. apply (Fr _ _ E). }
    rewrite Forall_forall in F. destruct (Hk (k, v) (or_introl eq_refl)) as [K1 K2]. cbn [fst] in K1, K2.
    set (kn := N.to_nat k). assert (Em : m = (kn - lo) + Datatypes.S (lo + m - Datatypes.S kn)) by (unfold kn; lia).
    rewrite Em, seq_app, fold_left_app. replace (lo + (kn - lo)) with kn by (unfold kn; lia). cbn [seq fold_left].
    assert (G0 : forall l x, (forall j, In j l -> (j < kn)%nat) -> fsame x (fold_left (cstep (spol O ((k, v) :: rhs)) (spol O a) d) l x)).
    { induction l as [|j l IHl]; intros x Hl; [apply fsame_refl|]. cbn [fold_left]. eapply fsame_trans; [|apply IHl; intros; apply Hl; right; assumption].
      apply fsame_sym, cstep_zero; [exact Fb|exact Fa|left]. unfold spol. rewrite key_get_lt; [reflexivity|].
      specialize (Hl j (or_introl eq_refl)). intros kv [<-|H]; cbn [fst]; [unfold kn in Hl; lia|]. specialize (F kv H). unfold key_lt in F. cbn [fst] in F. unfold kn in Hl. lia. }
    assert (G1 : forall l x, (forall j, In j l -> (kn < j)%nat) ->
      fold_left (cstep (spol O ((k, v) :: rhs)) (spol O a) d) l x = fold_left (cstep (spol O rhs) (spol O a) d) l x).
    { induction l as [|j l IHl]; intros x Hl; [reflexivity|]. cbn [fold_left]. rewrite IHl by (intros; apply Hl; right; assumption). f_equal.
      unfold cstep, spol. cbn [m_get]. specialize (Hl j (or_introl eq_refl)). replace (N.of_nat j =? k)%N with false by (unfold kn in Hl; lia). reflexivity. }
    rewrite G1 by (intros j Hj; apply in_seq in Hj; lia).
    cbn [sprods]. unfold dot. rewrite fold_left_app. fold (@dot f).
    eapply fsame_trans; [apply (IH Fr' (lo + m - Datatypes.S kn) (Datatypes.S kn))|].
    { intros kv H. specialize (F kv H). unfold key_lt in F. cbn [fst] in F. destruct (Hk kv (or_intror H)). unfold kn. lia. }
    apply fold_same; [intros; apply cstep_same; assumption|].
    assert (Ev : spol O ((k, v) :: rhs) kn = v) by (unfold spol, kn; rewrite N2Nat.id; cbn [m_get]; rewrite N.eqb_refl; reflexivity).
    eapply fsame_trans; [|apply cstep_same, (G0 (seq lo (kn - lo)) acc); intros j Hj; apply in_seq in Hj; lia].
    destruct (is_zero O v) eqn:Ez.
    { apply fsame_sym, cstep_zero; [exact Fb|exact Fa|left]. rewrite Ev. exact Ez. }
    destruct (N.ltb_spec (N.of_nat d) k) as [Hd|Hd].
    { apply fsame_sym, cstep_zero; [exact Fb|exact Fa|right; right]. unfold kn. lia. }
    assert (Ea : spol O a (d - kn) = match m_get (N.of_nat d - k) a with Some l => l | None => z end).
    { unfold spol. replace (N.of_nat (d - kn)) with (N.of_nat d - k)%N by (unfold kn; lia). reflexivity. }
    destruct (m_get (N.of_nat d - k) a) as [l|].
    + cbn [fold_left fst snd]. unfold cstep. replace (kn <=? d)%nat with true by (unfold kn; lia). rewrite Ev, Ea. apply fsame_refl.
    + apply fsame_sym, cstep_zero; [exact Fb|exact Fa|right; left]. rewrite Ea. reflexivity.
Qed.

Lemma rev_seq_map d : rev (seq 0 (S d)) = map (fun k => d - k) (seq 0 (S d)).
Proof.
  apply (nth_ext _ _ 0 (d - 0)); rewrite rev_length, seq_length; [rewrite map_length, seq_length; reflexivity|].
  intros n Hn. rewrite (map_nth (fun k => d - k)), rev_nth, seq_length, !seq_nth by (rewrite ?seq_length; lia). lia.
Qed.

Lemma fold_up_convolve p q d m acc : (forall k, is_finite (p k) = true) -> (forall k, is_finite (q k) = true) -> (S d <= m)%nat ->
  fsame (fold_left (cstep p q d) (seq 0 m) acc) (convolve q p d acc).
Proof.
  intros Fp Fq Hm. replace m with (S d + (m - S d)) by lia. rewrite seq_app, fold_left_app. rewrite Nat.add_0_l.
  eapply fsame_trans; [apply fsame_sym|].
  { assert (G : forall l x, (forall j, In j l -> (d < j)%nat) -> fsame x (fold_left (cstep p q d) l x)).
    { induction l as [|j l IHl]; intros x Hl; [apply fsame_refl|]. cbn [fold_left]. eapply fsame_trans; [|apply IHl; intros; apply Hl; right; assumption].
      apply fsame_sym, cstep_zero; [exact Fp|exact Fq|right; right]. apply Hl. left. reflexivity. }
    apply G. intros j Hj. apply in_seq in Hj. lia. }
  unfold convolve. rewrite rev_seq_map. left.
  assert (G : forall l x, (forall j, In j l -> (j <= d)%nat) ->
    fold_left (cstep p q d) l x = fold_left (fun t k => fadd t (fmul (q k) (p (d - k)))) (map (fun k => d - k) l) x).
  { induction l as [|j l IHl]; intros x Hl; [reflexivity|]. cbn [map fold_left]. rewrite <- IHl by (intros; apply Hl; right; assumption). f_equal.
    specialize (Hl j (or_introl eq_refl)). unfold cstep. replace (j <=? d)%nat with true by lia. replace (d - (d - j)) with j by lia. rewrite fmul_comm. reflexivity. }
  apply G. intros j Hj. apply in_seq in Hj. lia.
Qed.

Lemma sparse_mul_convolve a b : swf a -> swf b -> (forall k, is_finite (spol O a k) = true) -> (forall k, is_finite (spol O b k) = true) ->
  (forall ka kb, In ka a -> In kb b -> (fst ka + fst kb <= USIZE_MAX)%N) ->
  exists r, sparse_mul O a b = Ok r /\ forall d, fsame (spol O r d) (convolve (spol O a) (spol O b) d z).
Proof.
  intros Ha Hb Fa Fb Hs. destruct (sparse_mul_sums chk f powi a b Ha) with (terms := @nil (N * flt f)) as (r & E & H).
  { intros ka kb K1 K2. rewrite N.add_comm. auto. }
  exists r. split; [exact E|]. intros d.
  assert (Eo : fsame (spol O r d) (dot z (sprods chk f powi b a (N.of_nat d)))).
  { unfold spol. rewrite H. cbn [m_get]. destruct (sprods chk f powi b a (N.of_nat d)) as [|[x y] L]; [apply fsame_refl|].
    change (osum f None ((x, y) :: L)) with (osum f (Some (fmul x y)) L). rewrite osum_some. unfold dot. cbn [fold_left fst snd].
    apply fold_same; [intros; apply fadd_same; assumption|]. rewrite fadd_comm. apply fadd_zero_r. }
  eapply fsame_trans; [exact Eo|].
  assert (B : exists m, forall kv, In kv b -> (fst kv < N.of_nat m)%N).
  { clear. induction b as [|kv b [m IH]]; [exists 0; intros ? []|]. exists (Nat.max m (Datatypes.S (N.to_nat (fst kv)))).
    intros x [<-|Hx]; [lia|]. specialize (IH x Hx). lia. }
  destruct B as [m Hm].
  eapply fsame_trans; [apply (sprods_fold a b d Fa) with (lo := 0) (m := Nat.max m (S d))|].
  - intros k v Hin. specialize (Fb (N.to_nat k)). unfold spol in Fb. rewrite N2Nat.id in Fb. rewrite (sorted_in_get b k v (proj1 Hb) Hin) in Fb. exact Fb.
  - apply Hb.
  - intros kv Hin. specialize (Hm kv Hin). lia.
  - apply (fold_up_convolve (spol O b) (spol O a) d _ _ Fb Fa). lia.
Qed.

Lemma dense_same_step : fstep (dense_mut O) (vec_ok O) (dpol O) (fun d => (d + 1 <= n_max_len O)%N) fsame (fun _ _ => true) DegreeOutOfBounds.
Proof.
  intros l c d Hl Hd. destruct (dense_fstep chk f powi l c d Hl Hd) as [(r & E & I & C) (r' & E' & I' & C')].
  split; [exists r|exists r']; (split; [assumption|]); (split; [assumption|]); intros i; [rewrite C|rewrite C']; apply fsame_refl.
Qed.

Lemma dense_listed l : vec_ok O l -> exists ts, dense_terms O l = Ok ts /\ lists_of O (dpol O l) ts /\
  Forall (fun t => (snd t < len l)%N) ts.
Proof.
  intros Hl. destruct (C72_terms (flt f) O eq_refl) as [H _]. destruct (H l) as (ts & E & L). exists ts. split; [exact E|]. split; [exact L|].
  rewrite Forall_forall. intros [c k] Hin. apply L in Hin. destruct Hin as [-> K]. cbn [snd].
  destruct (N.lt_ge_cases k (len l)) as [G|G]; [exact G|]. exfalso. unfold dpol in K. rewrite cf_overflow in K by (unfold len in G; lia). discriminate K.
Qed.

Lemma sparse_listed m : swf m -> lists_of O (spol O m) (sparse_terms O m) /\ Forall (fun t => (snd t <= USIZE_MAX)%N) (sparse_terms O m).
Proof.
  intros Hm. destruct (C72_terms (flt f) O eq_refl) as (_ & H & _). specialize (H m Hm). split; [exact H|].
  rewrite Forall_forall. intros [c k] Hin. apply H in Hin. destruct Hin as [-> K]. cbn [snd]. unfold spol in K. rewrite N2Nat.id in K.
  destruct (m_get k m) as [v|] eqn:E; [|discriminate K]. apply m_get_in in E. destruct Hm as [_ Hm]. rewrite Forall_forall in Hm. apply (Hm _ E).
Qed.
End Sink.

(** ** C110 *)

(** add_poly and sub_poly: one rounding per coefficient, for any source that lists its terms. *)
Theorem C110_sum : forall chk f powi (q : nat -> flt f) ts, let O := float_num chk f powi in lists_of O q ts ->
  (forall l, vec_ok O l -> Forall (fun t => (snd t + 1 <= n_max_len O)%N) ts ->
     (exists r, add_poly (dense_mut O) ts l = Ok (r, None) /\ vec_ok O r /\ forall d, fsame (dpol O r d) (fadd (dpol O l d) (q d))) /\
     (exists r, sub_poly (dense_mut O) ts l = Ok (r, None) /\ vec_ok O r /\ forall d, fsame (dpol O r d) (fsub (dpol O l d) (q d)))) /\
  (forall m, swf m -> Forall (fun t => (snd t <= USIZE_MAX)%N) ts ->
     (exists r, add_poly (sparse_mut O) ts m = Ok (r, None) /\ swf r /\ forall d, fsame (spol O r d) (fadd (spol O m d) (q d))) /\
     (exists r, sub_poly (sparse_mut O) ts m = Ok (r, None) /\ swf r /\ forall d, fsame (spol O r d) (fsub (spol O m d) (q d)))).
Proof.
  intros chk f powi q ts O Hq. split.
  - intros l Hl Hk. split.
    + apply (add_listed chk f powi (dense_mut O) _ _ _ _ (dense_same_step chk f powi) q ts l Hl Hq Hk).
    + apply (sub_listed chk f powi (dense_mut O) _ _ _ _ (dense_same_step chk f powi) q ts l Hl Hq Hk).
  - intros m Hm Hk. split.
    + apply (add_listed chk f powi (sparse_mut O) _ _ _ _ (sparse_fstep chk f powi) q ts m Hm Hq Hk).
    + apply (sub_listed chk f powi (sparse_mut O) _ _ _ _ (sparse_fstep chk f powi) q ts m Hm Hq Hk).
Qed.

(** They give what the operators + and - give. *)
Theorem C110_operators : forall chk f powi, let O := float_num chk f powi in
  (forall a b, vec_ok O a -> vec_ok O b -> exists ts r s r' s', dense_terms O b = Ok ts /\
     add_poly (dense_mut O) ts a = Ok (r, None) /\ dense_add O a b = Ok s /\ (forall d, fsame (dpol O r d) (dpol O s d)) /\
     sub_poly (dense_mut O) ts a = Ok (r', None) /\ dense_sub O a b = Ok s' /\ (forall d, fsame (dpol O r' d) (dpol O s' d))) /\
  (forall m n, swf m -> swf n -> exists r s r' s',
     add_poly (sparse_mut O) (sparse_terms O n) m = Ok (r, None) /\ sparse_add O m n = Ok s /\ (forall d, fsame (spol O r d) (spol O s d)) /\
     sub_poly (sparse_mut O) (sparse_terms O n) m = Ok (r', None) /\ sparse_sub O m n = Ok s' /\ (forall d, fsame (spol O r' d) (spol O s' d))).
Proof.
  intros chk f powi O. split.
  - intros a b Ha Hb. destruct (dense_listed chk f powi b Hb) as (ts & Et & Lt & Bt).
    assert (Bt' : Forall (fun t => (snd t + 1 <= n_max_len O)%N) ts).
    { eapply Forall_impl; [|exact Bt]. intros t Ht. cbn in Ht. unfold vec_ok in Hb. fold O in Hb. lia. }
    destruct (C110_sum chk f powi _ ts Lt) as [H _]. destruct (H a Ha Bt') as [(r & E & _ & C) (r' & E' & _ & C')].
    destruct (dense_add_same chk f powi a b) as (s & Es & Cs). destruct (dense_sub_same chk f powi a b) as (s' & Es' & Cs').
    exists ts, r, s, r', s'. repeat (split; [first [assumption | intros d; eapply fsame_trans; [apply C|]; apply fsame_sym, Cs]|]).
    intros d. eapply fsame_trans; [apply C'|]. apply fsame_sym, Cs'.
  - intros m n Hm Hn. destruct (sparse_listed chk f powi n Hn) as [Lt Bt].
    destruct (C110_sum chk f powi _ _ Lt) as [_ H]. destruct (H m Hm Bt) as [(r & E & _ & C) (r' & E' & _ & C')].
    destruct (sparse_add_same chk f powi m n Hm Hn) as (s & Es & Cs). destruct (sparse_sub_same chk f powi m n Hn) as (s' & Es' & Cs').
    exists r, s, r', s'. repeat (split; [first [assumption | intros d; eapply fsame_trans; [apply C|]; apply fsame_sym, Cs]|]).
    intros d. eapply fsame_trans; [apply C'|]. apply fsame_sym, Cs'.
Qed.

(** poly_add! and poly_sub!: left to right. *)
Theorem C110_macros : forall chk f powi (p : nat -> flt f) tp qs tss, let O := float_num chk f powi in
  lists_of O p tp -> Forall2 (lists_of O) qs tss -> Forall (Forall (fun t => (snd t + 1 <= n_max_len O)%N)) (tp :: tss) ->
  (exists r, poly_add_macro O tss = Ok r /\ forall d, fsame (dpol O r d) (fold_left (fun a q => fadd a (q d)) qs (fzero f))) /\
  (exists r, poly_sub_macro O tp tss = Ok r /\ forall d, fsame (dpol O r d) (fold_left (fun a q => fsub a (q d)) qs (p d))).
Proof.
  intros chk f powi p tp qs tss O Hp Hq Hk. inversion Hk as [|? ? K1 K2]; subst.
  assert (V0 : vec_ok O dense_zero) by (unfold vec_ok, dense_zero, len; cbn [length]; lia).
  pose proof (dense_same_step chk f powi) as St. split.
  - destruct (add_all chk f powi (dense_mut O) _ _ _ _ St qs tss Hq K2 dense_zero V0) as (r & E & _ & C). exists r.
    unfold poly_add_macro. rewrite E. split; [reflexivity|]. intros d. eapply fsame_trans; [apply C|]. unfold dpol, dense_zero. rewrite cf_nil. apply fsame_refl.
  - destruct (add_all chk f powi (dense_mut O) _ _ _ _ St [p] [tp] (Forall2_cons _ _ Hp (Forall2_nil _)) (Forall_cons _ K1 (Forall_nil _)) dense_zero V0) as (r & E & I & C).
    destruct (sub_all chk f powi (dense_mut O) _ _ _ _ St qs tss Hq K2 r I) as (r' & E' & _ & C'). exists r'.
    unfold poly_sub_macro. rewrite E. cbn [bind fst]. rewrite E'. split; [reflexivity|]. intros d. eapply fsame_trans; [apply C'|].
    apply fold_same; [intros; apply fsub_same; assumption|]. eapply fsame_trans; [apply C|]. cbn [fold_left]. unfold dpol, dense_zero. rewrite cf_nil.
    rewrite fadd_comm. apply fsame_sym, fadd_zero_r.
Qed.

(** mul_poly_vec: the products of each coefficient are added to the sink's, the highest degree of the first list first. *)
Theorem C110_product : forall chk f powi (p q : nat -> flt f) tp tq, let O := float_num chk f powi in
  lists_of O p tp -> lists_of O q tq -> (forall k, is_finite (p k) = true) -> (forall k, is_finite (q k) = true) ->
  (forall l, vec_ok O l -> Forall (fun t => Forall (fun s => (snd t + snd s + 1 <= n_max_len O)%N) tq) tp ->
     exists r, mul_poly_vec O (dense_mut O) tp tq l = Ok (r, None) /\ vec_ok O r /\ forall d, fsame (dpol O r d) (convolve p q d (dpol O l d))) /\
  (forall m, swf m -> Forall (fun t => Forall (fun s => (snd t + snd s <= USIZE_MAX)%N) tq) tp ->
     exists r, mul_poly_vec O (sparse_mut O) tp tq m = Ok (r, None) /\ swf r /\ forall d, fsame (spol O r d) (convolve p q d (spol O m d))).
Proof.
  intros chk f powi p q tp tq O Hp Hq Fp Fq. split.
  - intros l Hl Hk. destruct (rows_terms chk f powi (dense_mut O) _ _ _ _ (dense_same_step chk f powi) q tq Hq tp l Hl) as (r & E & I & C).
    { eapply Forall_impl; [|exact Hk]. intros t Ht. eapply Forall_impl; [|exact Ht]. intros s Hs. cbn beta in *.
      assert (n_max_len O <= 2 ^ 62)%N by (subst O; destruct f; vm_compute; discriminate). split; [exact Hs|]. unfold USIZE_MAX. lia. }
    exists r. split; [exact E|]. split; [exact I|]. intros d. eapply fsame_trans; [apply C|]. apply (rows_convolve chk f powi p q Fp Fq tp d _ Hp).
  - intros m Hm Hk. destruct (rows_terms chk f powi (sparse_mut O) _ _ _ _ (sparse_fstep chk f powi) q tq Hq tp m Hm) as (r & E & I & C).
    { eapply Forall_impl; [|exact Hk]. intros t Ht. eapply Forall_impl; [|exact Ht]. intros s Hs. cbn beta in *. split; exact Hs. }
    exists r. split; [exact E|]. split; [exact I|]. intros d. eapply fsame_trans; [apply C|]. apply (rows_convolve chk f powi p q Fp Fq tp d _ Hp).
Qed.

(** Started from zero, it gives what the operator * gives. *)
Theorem C110_multiply : forall chk f powi (a b s : list (flt f)), let O := float_num chk f powi in
  vec_ok O a -> vec_ok O b -> (len a + len b <= n_max_len O)%N -> (forall k, is_finite (dpol O a k) = true) -> (forall k, is_finite (dpol O b k) = true) ->
  dense_mul O a b = Ok s \/ dense_mul_ref O a b = Ok s ->
  (forall d, fsame (dpol O s d) (convolve (dpol O b) (dpol O a) d (fzero f))) /\
  exists ta tb r, dense_terms O a = Ok ta /\ dense_terms O b = Ok tb /\ mul_poly_vec O (dense_mut O) tb ta dense_zero = Ok (r, None) /\
    forall d, fsame (dpol O r d) (dpol O s d).
Proof.
  intros chk f powi a b s O Ha Hb Hl Fa Fb Hs.
  assert (Fs : forall l, (forall k, is_finite (dpol O l k) = true) -> forall k, is_finite (cf (fzero f) (strip O l) k) = true).
  { intros l Fl k. etransitivity; [exact (proj2 (fsame_B _ _ (strip_same chk f powi l k)))|]. apply Fl. }
  assert (C : forall d, fsame (dpol O s d) (convolve (dpol O b) (dpol O a) d (fzero f))).
  { assert (G : forall r, slice_mul O a b = Ok r -> forall d, fsame (dpol O r d) (convolve (dpol O b) (dpol O a) d (fzero f))).
    { intros r Hr d. destruct (slice_mul_dot chk f powi a b r Ha Hb Hr) as [_ D]. unfold dpol at 1. change (zero O) with (fzero f). rewrite D.
      eapply fsame_trans; [apply (prods_convolve chk f powi _ _ d (Fs a Fa) (Fs b Fb))|]. apply convolve_same; intros k; apply strip_same. }
    destruct Hs as [Hs|Hs]; [apply G, Hs|]. unfold dense_mul_ref in Hs. apply bind_ok in Hs. destruct Hs as (t & Ht & Hs).
    rewrite dense_new_ok in Hs. injection Hs as <-. intros d. eapply fsame_trans; [apply (strip_same chk f powi t d)|]. apply (G t Ht). }
  split; [exact C|].
  destruct (dense_listed chk f powi a Ha) as (ta & Eta & Lta & Bta). destruct (dense_listed chk f powi b Hb) as (tb & Etb & Ltb & Btb).
  destruct (C110_product chk f powi _ _ tb ta Ltb Lta Fb Fa) as [P _]. destruct (P dense_zero) as (r & Er & _ & Cr).
  - unfold vec_ok, dense_zero, len; cbn [length]; lia.
  - rewrite Forall_forall in *. intros t Ht. rewrite Forall_forall. intros u Hu. specialize (Bta u Hu). specialize (Btb t Ht). cbn beta in *. fold O. lia.
  - exists ta, tb, r. repeat (split; [assumption|]). intros d. eapply fsame_trans; [apply Cr|]. apply fsame_sym.
    replace (dpol (float_num chk f powi) dense_zero d) with (fzero f) by (symmetry; apply cf_nil). apply C.
Qed.

(** The sparse product a * b is the dense product b * a, rounding for rounding. *)
Theorem C110_sparse_multiply : forall chk f powi (m n : bmap (flt f)), let O := float_num chk f powi in
  swf m -> swf n -> (forall k, is_finite (spol O m k) = true) -> (forall k, is_finite (spol O n k) = true) ->
  (forall km kn, In km m -> In kn n -> (fst km + fst kn <= USIZE_MAX)%N) ->
  exists r, sparse_mul O m n = Ok r /\
  (forall d, fsame (spol O r d) (convolve (spol O m) (spol O n) d (fzero f))) /\
  forall a b s, vec_ok O a -> vec_ok O b -> (len b + len a <= n_max_len O)%N ->
    (forall k, fsame (dpol O a k) (spol O m k)) -> (forall k, fsame (dpol O b k) (spol O n k)) ->
    dense_mul O b a = Ok s \/ dense_mul_ref O b a = Ok s -> forall d, fsame (spol O r d) (dpol O s d).
Proof.
  intros chk f powi m n O Hm Hn Fm Fn Hk. destruct (sparse_mul_convolve chk f powi m n Hm Hn Fm Fn Hk) as (r & E & C).
  exists r. split; [exact E|]. split; [exact C|]. intros a b s Ha Hb Hl Sa Sb Hs d.
  assert (Fa : forall k, is_finite (dpol O a k) = true) by (intros k; rewrite (proj2 (fsame_B _ _ (Sa k))); apply Fm).
  assert (Fb : forall k, is_finite (dpol O b k) = true) by (intros k; rewrite (proj2 (fsame_B _ _ (Sb k))); apply Fn).
  destruct (C110_multiply chk f powi b a s Hb Ha Hl Fb Fa Hs) as [D _].
  eapply fsame_trans; [apply C|]. eapply fsame_trans; [|apply fsame_sym, D]. apply convolve_same; intros k; apply fsame_sym; [apply Sa|apply Sb].
Qed.

(** (x + 1)(2x - 3) added to 5x, the product itself, and (x + 1) + (2x - 3). *)
Example C110_case : let O := float_num true F64 (fun a _ => a) in let n := f_of_Z F64 in
  rmap (map (fun t => (B2SF (fst t), snd t))) (dense_terms O [n 2%Z; n (-3)%Z]) = Ok [(B2SF (n 2%Z), 1%N); (B2SF (n (-3)%Z), 0%N)] /\
  is_finite (n 5%Z) = true /\ vec_ok O [n 2%Z; n (-3)%Z] /\
  rmap (fun r => (map B2SF (fst r), snd r)) (mul_poly_vec O (dense_mut O) [(n 1%Z, 1%N); (n 1%Z, 0%N)] [(n 2%Z, 1%N); (n (-3)%Z, 0%N)] [n 5%Z; n 0%Z])
    = Ok (map B2SF [n 2%Z; n 4%Z; n (-3)%Z], None) /\
  rmap (map B2SF) (dense_mul O [n 2%Z; n (-3)%Z] [n 1%Z; n 1%Z]) = Ok (map B2SF [n 2%Z; n (-1)%Z; n (-3)%Z]) /\
  rmap (map (fun kv => (fst kv, B2SF (snd kv)))) (sparse_mul O [(0%N, n (-3)%Z); (1%N, n 2%Z)] [(0%N, n 1%Z); (1%N, n 1%Z)])
    = Ok [(0%N, B2SF (n (-3)%Z)); (1%N, B2SF (n (-1)%Z)); (2%N, B2SF (n 2%Z))] /\
  rmap (map B2SF) (poly_add_macro O [[(n 1%Z, 1%N); (n 1%Z, 0%N)]; [(n 2%Z, 1%N); (n (-3)%Z, 0%N)]]) = Ok (map B2SF [n 3%Z; n (-2)%Z]).
Proof. intros O n. split; [vm_compute; reflexivity|]. split; [reflexivity|]. split; [unfold vec_ok; vm_compute; discriminate|]. repeat split; vm_compute; reflexivity. Qed.

Print Assumptions C110_sum.
Print Assumptions C110_operators.
Print Assumptions C110_macros.
Print Assumptions C110_product.
Print Assumptions C110_multiply.
Print Assumptions C110_sparse_multiply.
