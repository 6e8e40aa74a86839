(** Outcomes of Rust calls, [usize] arithmetic, slices and vectors.

    Modelled: what every function of /repo/src can do when called - return, panic, or
    keep running - and the pieces of the Rust standard library the crate uses on
    [usize], slices and vectors.  64-bit target assumed ([usize] = 64 bits). *)

From Coq Require Import List NArith ZArith Lia Bool.
From Coq Require Import ZifyBool ZifyNat ZifyN.
Import ListNotations.

(** Why a call panicked. *)
Inductive panic_kind :=
| POverflow      (* arithmetic overflow *)
| PDivZero       (* division by zero *)
| PIndex         (* index / slice out of range *)
| PCapacity      (* Vec capacity overflow *)
| PExpect        (* Option/Result::expect or unwrap *)
| PUnreachable   (* unreachable!() *)
| PZeroPoly.     (* panic!("Can't divide polynomial by 0.") *)

(** Outcome of a call.  [Fuel]: still running after the given number of loop rounds or
    nested calls. *)
Inductive res (A : Type) :=
| Ok (a : A)
| Panic (k : panic_kind)
| Fuel.
Arguments Ok {A} a.
Arguments Panic {A} k.
Arguments Fuel {A}.

Definition bind {A B} (m : res A) (f : A -> res B) : res B :=
  match m with Ok a => f a | Panic k => Panic k | Fuel => Fuel end.

Notation "x <- m ;; k" := (bind m (fun x => k))
  (at level 61, m at next level, right associativity).
Notation "' p <- m ;; k" := (bind m (fun p => k))
  (at level 61, p pattern, m at next level, right associativity).

Definition rmap {A B} (f : A -> B) (m : res A) : res B := x <- m ;; Ok (f x).

(** [for x in l { f(x) }] collecting results. *)
Fixpoint mapM {A B} (f : A -> res B) (l : list A) : res (list B) :=
  match l with
  | [] => Ok []
  | x :: l' => y <- f x ;; ys <- mapM f l' ;; Ok (y :: ys)
  end.

(** [for x in l { s = f(s, x) }]. *)
Fixpoint foldM {A S} (f : S -> A -> res S) (s : S) (l : list A) : res S :=
  match l with
  | [] => Ok s
  | x :: l' => s' <- f s x ;; foldM f s' l'
  end.

(** [for (x, y) in l.iter_mut().zip(m) { *x = f(x, y) }]: entries of [l] beyond the
    length of [m] are kept. *)
Fixpoint zipM {A B} (f : A -> B -> res A) (l : list A) (m : list B) : res (list A) :=
  match l, m with
  | x :: l', y :: m' => z <- f x y ;; zs <- zipM f l' m' ;; Ok (z :: zs)
  | _, _ => Ok l
  end.

(** ** usize *)

Definition USIZE_MAX : N := (2 ^ 64 - 1)%N.
Definition USIZE_MOD : N := (2 ^ 64)%N.

(** usize operators; [chk] = overflow checks enabled (debug profile). *)
Definition uadd (chk : bool) (a b : N) : res N :=
  let s := (a + b)%N in
  if (s <=? USIZE_MAX)%N then Ok s
  else if chk then Panic POverflow else Ok (s mod USIZE_MOD)%N.

Definition usub (chk : bool) (a b : N) : res N :=
  if (b <=? a)%N then Ok (a - b)%N
  else if chk then Panic POverflow else Ok ((USIZE_MOD + a - b mod USIZE_MOD) mod USIZE_MOD)%N.

Definition umul (chk : bool) (a b : N) : res N :=
  let s := (a * b)%N in
  if (s <=? USIZE_MAX)%N then Ok s
  else if chk then Panic POverflow else Ok (s mod USIZE_MOD)%N.

(** [-rhs] on i32. *)
Definition I32_MIN : Z := (- 2 ^ 31)%Z.
Definition I32_MAX : Z := (2 ^ 31 - 1)%Z.
Definition neg_i32 (chk : bool) (k : Z) : res Z :=
  if (k =? I32_MIN)%Z then (if chk then Panic POverflow else Ok k) else Ok (- k)%Z.

(** ** slices and vectors *)

Definition len {A} (l : list A) : N := N.of_nat (length l).

(** [&l[i..]] *)
Definition slice_from {A} (l : list A) (i : nat) : res (list A) :=
  if (i <=? length l)%nat then Ok (skipn i l) else Panic PIndex.

(** [&l[i..j]] *)
Definition slice {A} (l : list A) (i j : nat) : res (list A) :=
  if (i <=? j)%nat && (j <=? length l)%nat
  then Ok (firstn (j - i) (skipn i l)) else Panic PIndex.

(** [l[i]] *)
Definition index {A} (l : list A) (i : N) : res A :=
  if (i <? len l)%N then
    match nth_error l (N.to_nat i) with
    | Some x => Ok x
    | None => Panic PIndex
    end
  else Panic PIndex.

(** [l[i] = f(l[i])] *)
Fixpoint update_nat {A} (l : list A) (i : nat) (f : A -> res A) : res (list A) :=
  match l, i with
  | [], _ => Panic PIndex
  | x :: l', O => y <- f x ;; Ok (y :: l')
  | x :: l', S i' => l'' <- update_nat l' i' f ;; Ok (x :: l'')
  end.
Definition update {A} (l : list A) (i : N) (f : A -> res A) : res (list A) :=
  if (i <? len l)%N then update_nat l (N.to_nat i) f else Panic PIndex.

(** [vec![z; n]] for an element type of which at most [cap] fit in isize::MAX bytes. *)
Definition vec_repeat {A} (cap : N) (z : A) (n : N) : res (list A) :=
  if (n <=? cap)%N then Ok (repeat z (N.to_nat n)) else Panic PCapacity.

(** Growing a vector holding [l] by [n] elements. *)
Definition vec_grow {A} (cap : N) (l : list A) (n : N) : res unit :=
  if (len l + n <=? cap)%N then Ok tt else Panic PCapacity.

(** ** basic facts about outcomes *)

Lemma bind_ok {A B} (m : res A) (f : A -> res B) b :
  bind m f = Ok b -> exists a, m = Ok a /\ f a = Ok b.
Proof. destruct m; simpl; intros H; try discriminate. eauto. Qed.

Lemma bind_ok_iff {A B} (m : res A) (f : A -> res B) b :
  bind m f = Ok b <-> exists a, m = Ok a /\ f a = Ok b.
Proof. split; [apply bind_ok|]. intros (a & -> & H). exact H. Qed.

Lemma Ok_inj {A} (a b : A) : Ok a = Ok b -> a = b.
Proof. congruence. Qed.

Lemma bind_panic {A B} (m : res A) (f : A -> res B) k :
  bind m f = Panic k -> m = Panic k \/ exists a, m = Ok a /\ f a = Panic k.
Proof. destruct m; simpl; intros H; try discriminate; eauto. left; congruence. Qed.

(** Decompose every [bind _ _ = Ok _] in the context. *)
Ltac inv_ok :=
  repeat match goal with
  | H : bind _ _ = Ok _ |- _ =>
      let a := fresh "v" in let E := fresh "E" in
      apply bind_ok in H; destruct H as (a & E & H)
  | H : Ok ?x = Ok ?y |- _ => apply Ok_inj in H; first [subst x | subst y | idtac]
  | H : Panic _ = Ok _ |- _ => discriminate H
  | H : Fuel = Ok _ |- _ => discriminate H
  end.

Lemma slice_from_ok {A} (l : list A) i r :
  slice_from l i = Ok r -> (i <= length l)%nat /\ r = skipn i l.
Proof.
  unfold slice_from. destruct (Nat.leb_spec i (length l)); intros H0; inv_ok; auto.
Qed.

Lemma update_nat_spec {A} (l : list A) i f r :
  update_nat l i f = Ok r ->
  exists pre x post y, l = pre ++ x :: post /\ length pre = i /\ f x = Ok y /\ r = pre ++ y :: post.
Proof.
  revert i r. induction l as [|x l IH]; intros i r; simpl; [discriminate|].
  destruct i; intros H; inv_ok.
  - exists [], x, l, v. auto.
  - destruct (IH _ _ E) as (pre & x' & post & y & -> & <- & Hf & ->).
    exists (x :: pre), x', post, y. auto.
Qed.

Lemma update_nat_complete {A} (pre : list A) x post f y :
  f x = Ok y -> update_nat (pre ++ x :: post) (length pre) f = Ok (pre ++ y :: post).
Proof.
  intros Hf. induction pre as [|z pre IH]; simpl.
  - rewrite Hf. reflexivity.
  - rewrite IH. reflexivity.
Qed.

Lemma mapM_length {A B} (f : A -> res B) l r : mapM f l = Ok r -> length r = length l.
Proof.
  revert r. induction l as [|x l IH]; simpl; intros r H; inv_ok; auto.
  simpl. f_equal. auto.
Qed.

Lemma zipM_length {A B} (f : A -> B -> res A) l m r : zipM f l m = Ok r -> length r = length l.
Proof.
  revert m r. induction l as [|x l IH]; simpl; intros m r H.
  - destruct m; inv_ok; auto.
  - destruct m; inv_ok; auto. simpl. f_equal. eauto.
Qed.

Lemma mapM_ok_iff {A B} (f : A -> res B) l :
  (exists r, mapM f l = Ok r) <-> Forall (fun x => exists y, f x = Ok y) l.
Proof.
  induction l as [|x l IH]; simpl.
  - split; intros; eauto.
  - split.
    + intros (r & H). inv_ok. constructor; eauto. apply IH. eauto.
    + intros H. inversion H as [|? ? (y & Hy) Hl]; subst. apply IH in Hl. destruct Hl as (r & Hr).
      rewrite Hy, Hr. simpl. eauto.
Qed.

Lemma foldM_app {A S} (f : S -> A -> res S) s l1 l2 :
  foldM f s (l1 ++ l2) = (s' <- foldM f s l1 ;; foldM f s' l2).
Proof.
  revert s. induction l1 as [|x l IH]; intros s; simpl; [reflexivity|].
  destruct (f s x); simpl; auto.
Qed.

Lemma uadd_small chk a b : (a + b <= USIZE_MAX)%N -> uadd chk a b = Ok (a + b)%N.
Proof. intros H. unfold uadd. destruct (N.leb_spec (a + b) USIZE_MAX); [reflexivity|lia]. Qed.

Lemma usub_le chk a b : (b <= a)%N -> usub chk a b = Ok (a - b)%N.
Proof. intros H. unfold usub. destruct (N.leb_spec b a); [reflexivity|lia]. Qed.

Lemma uadd_checked_ok a b c : uadd true a b = Ok c -> c = (a + b)%N /\ (a + b <= USIZE_MAX)%N.
Proof.
  unfold uadd. destruct (N.leb_spec (a + b) USIZE_MAX); intros H0; inv_ok; auto.
Qed.

Lemma umul_checked_ok a b c : umul true a b = Ok c -> c = (a * b)%N /\ (a * b <= USIZE_MAX)%N.
Proof.
  unfold umul. destruct (N.leb_spec (a * b) USIZE_MAX); intros H0; inv_ok; auto.
Qed.
