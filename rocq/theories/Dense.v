(** /repo/src/polynomial/polynomial.rs: [Polynomial<N>].

    A polynomial is its public field [terms]: a vector of coefficients, highest degree
    first; leading zeros are possible.  By-reference and by-value variants that run the
    same code share one definition.  Not modelled here: [roots] (Roots.v), the upcasts
    (Upcast.v), FromStr and Display (Strs.v). *)

From Coq Require Import List NArith ZArith Bool.
From Verif Require Import Base Num Terms.
Import ListNotations.

Section Dense.
Context {T : Type} (O : num T).

Notation nz c := (negb (is_zero O c)).

(** polynomial.rs 44-52: the scan of [chunks_exact(4).remainder()]; [base] is [len]. *)
Fixpoint fnz_rem (l : list T) (base : nat) : nat :=
  match l with
  | [] => base
  | v :: l' => if nz v then base else fnz_rem l' (S base)
  end.

(** polynomial.rs 32-53: first_nonzero_index.  [base] = 4 * number of chunks already
    passed; a chunk is inspected element by element, what remains after the last full
    chunk by [fnz_rem]. *)
Fixpoint fnz_chunks (l : list T) (base : nat) : nat :=
  match l with
  | a :: b :: c :: d :: l' =>
    if nz a then base else if nz b then base + 1 else if nz c then base + 2
    else if nz d then base + 3 else fnz_chunks l' (base + 4)
  | _ => fnz_rem l base
  end.
Definition first_nonzero_index (l : list T) : nat := fnz_chunks l 0.

(** polynomial.rs 110-118: tail of first_term; [n] = poly_vec.len().  The subtraction
    [n - index - 1] cannot underflow since [index] is a position of the vector. *)
Fixpoint ft_rem (n : N) (l : list T) (idx : N) : term T :=
  match l with
  | [] => ZeroTerm
  | v :: l' => if nz v then TTerm v (n - idx - 1) else ft_rem n l' (idx + 1)
  end.

(** polynomial.rs 98-119: first_term; [base] = degree * 4 of the loop. *)
Fixpoint ft_chunks (n : N) (l : list T) (base : N) : term T :=
  match l with
  | a :: b :: c :: d :: l' =>
    if nz a then TTerm a (n - base - 0 - 1)
    else if nz b then TTerm b (n - base - 1 - 1)
    else if nz c then TTerm c (n - base - 2 - 1)
    else if nz d then TTerm d (n - base - 3 - 1)
    else ft_chunks n l' (base + 4)
  | _ => ft_rem n l base
  end.
Definition first_term (l : list T) : term T := ft_chunks (len l) l 0.

(** polynomial.rs 86-96: degree *)
Definition dense_degree (l : list T) : degree :=
  let index := first_nonzero_index l in
  if (index =? length l)%nat then NegInf else Num (len l - N.of_nat index - 1).

(** traits.rs 48-50 *)
Definition dense_is_zero (l : list T) : bool := degree_is_zero (dense_degree l).

(** polynomial.rs 121-127: term_with_deg *)
Definition term_with_deg (l : list T) (d : N) : res (term T) :=
  if (d <? len l)%N then
    i1 <- usub (n_chk O) (len l) d ;; i <- usub (n_chk O) i1 1 ;;
    c <- index l i ;; Ok (term_new O c d)
  else Ok ZeroTerm.

(** polynomial.rs 164-169: trim.  [drain(0..ind)] panics if [ind] exceeds the length. *)
Definition dense_trim (l : list T) : res (list T) :=
  let ind := first_nonzero_index l in
  if (ind =? 0)%nat then Ok l else slice_from l ind.

(** polynomial.rs 147-151: Polynomial::new; 643-645: From<Vec<N>>; 17-24: polynomial! *)
Definition dense_new (l : list T) : res (list T) := dense_trim l.

(** polynomial.rs 171-182: ordered_term_iter (and 190-192: terms_as_vec) *)
Definition dense_terms (l : list T) : res (list (T * N)) :=
  terms <- slice_from l (first_nonzero_index l) ;;
  enum_terms O (len terms - 1) 0 terms.

(** polynomial.rs 219-221: zero; 234-236: set_to_zero *)
Definition dense_zero : list T := [].

(** polynomial.rs 315-323: add_term.  [splice(0..0, repeat(zero).take(k))] grows the vector
    at the front. *)
Definition dense_add_term (l : list T) (c : T) (d : N) : res (list T) :=
  d1 <- uadd (n_chk O) d 1 ;;
  l' <- (if (len l <? d1)%N then
           added <- usub (n_chk O) d1 (len l) ;;
           _ <- vec_grow (n_max_len O) l added ;;
           Ok (repeat (zero O) (N.to_nat added) ++ l)
         else Ok l) ;;
  i1 <- usub (n_chk O) (len l') d ;; i <- usub (n_chk O) i1 1 ;;
  update l' i (fun x => add O x c).

(** polynomial.rs 243-245: try_add_term *)
Definition dense_try_add_term (l : list T) (c : T) (d : N) : mutres (list T) :=
  l' <- dense_add_term l c d ;; Ok (l', None).

(** polynomial.rs 247-260: try_sub_term *)
Definition dense_try_sub_term (l : list T) (c : T) (d : N) : mutres (list T) :=
  d1 <- uadd (n_chk O) d 1 ;;
  if (len l <? d1)%N && negb (can_negate O) then Ok (l, Some CanNotNegate)
  else
    l' <- (if (len l <? d1)%N then
             added <- usub (n_chk O) d1 (len l) ;;
             _ <- vec_grow (n_max_len O) l added ;;
             Ok (repeat (zero O) (N.to_nat added) ++ l)
           else Ok l) ;;
    i1 <- usub (n_chk O) (len l') d ;; i <- usub (n_chk O) i1 1 ;;
    l'' <- update l' i (fun x => sub O x c) ;;
    Ok (l'', None).

(** polynomial.rs 307-313: from_terms *)
Definition dense_from_terms (ts : list (T * N)) : res (list T) :=
  foldM (fun l ct => dense_add_term l (fst ct) (snd ct)) dense_zero ts.

(** slice::split_last: the last element and the elements before it. *)
Fixpoint split_last (l : list T) : option (T * list T) :=
  match l with
  | [] => None
  | x :: l' => match split_last l' with
               | None => Some (x, [])
               | Some (y, f) => Some (y, x :: f)
               end
  end.

(** polynomial.rs 353-357: the Horner loop. *)
Definition horner (point : T) (first : list T) : res T :=
  foldM (fun sum val => s <- add O sum val ;; mul O s point) (zero O) first.

(** polynomial.rs 340-362: eval (identical code in array_polynomial.rs 59-74) *)
Definition dense_eval (l : list T) (point : T) : res T :=
  match split_last l with
  | Some (lst, first) =>
    if is_zero O point then Ok lst
    else sum <- horner point first ;; add O sum lst
  | None => Ok (zero O)
  end.

(** polynomial.rs 392-395 *)
Fixpoint deriv_loop (deg : T) (l : list T) : res (list T) :=
  match l with
  | [] => Ok []
  | t :: l' =>
    deg' <- sub O deg (one O) ;; t' <- mul O t deg' ;;
    r <- deriv_loop deg' l' ;; Ok (t' :: r)
  end.

(** polynomial.rs 381-397: derivative *)
Definition dense_derivative (l : list T) : res (list T) :=
  let ind := first_nonzero_index l in
  n <- usub (n_chk O) (len l) (N.of_nat ind) ;;
  deg <- expect (of_cont O n) ;;
  tail <- slice_from l ind ;;
  match split_last tail with
  | Some (_, terms) => deriv_loop deg terms
  | None => Ok dense_zero
  end.

(** polynomial.rs 430-433 *)
Fixpoint integ_loop (deg : T) (l : list T) : res (list T) :=
  match l with
  | [] => Ok []
  | t :: l' =>
    t' <- div O t deg ;; deg' <- sub O deg (one O) ;;
    r <- integ_loop deg' l' ;; Ok (t' :: r)
  end.

(** polynomial.rs 425-436: integral (the polynomial inside the Integral) *)
Definition dense_integral (l : list T) : res (list T) :=
  let ind := first_nonzero_index l in
  n <- usub (n_chk O) (len l) (N.of_nat ind) ;;
  deg <- expect (of_cont O n) ;;
  terms <- slice_from l ind ;;
  terms' <- integ_loop deg terms ;;
  _ <- vec_grow (n_max_len O) terms' 1 ;;
  Ok (terms' ++ [zero O]).

(** polynomial.rs 66-68: one row of the product, added to [terms[index..]]. *)
Definition mul_row (rterm : T) (lhs terms : list T) : res (list T) :=
  zipM (fun t l => p <- mul O rterm l ;; add O t p) terms lhs.

(** polynomial.rs 62-69 *)
Fixpoint mul_rows (idx : nat) (rhs lhs terms : list T) : res (list T) :=
  match rhs with
  | [] => Ok terms
  | rterm :: rhs' =>
    if is_zero O rterm then mul_rows (S idx) rhs' lhs terms
    else
      tail <- slice_from terms idx ;;
      tail' <- mul_row rterm lhs tail ;;
      mul_rows (S idx) rhs' lhs (firstn idx terms ++ tail')
  end.

(** polynomial.rs 55-71: slice_mul *)
Definition slice_mul (lhs rhs : list T) : res (list T) :=
  rhs <- slice_from rhs (first_nonzero_index rhs) ;;
  lhs <- slice_from lhs (first_nonzero_index lhs) ;;
  s <- uadd (n_chk O) (len rhs) (len lhs) ;;
  n <- usub (n_chk O) s 1 ;;
  terms <- vec_repeat (n_max_len O) (zero O) n ;;
  mul_rows 0 rhs lhs terms.

(** polynomial.rs 796-800 and 820-824 (rhs by value), 842-853 (MulAssign) *)
Definition dense_mul (a b : list T) : res (list T) := slice_mul a b.

(** polynomial.rs 809-811 and 833-835 (rhs by reference) *)
Definition dense_mul_ref (a b : list T) : res (list T) :=
  t <- slice_mul a b ;; dense_new t.

(** polynomial.rs 455-469: pow.  [fuel] bounds the recursion depth. *)
Fixpoint dense_pow (fuel : nat) (p : list T) (e : N) : res (list T) :=
  match fuel with
  | 0%nat => Fuel
  | S f =>
    if (e =? 0)%N then Ok [one O]
    else if (e =? 1)%N then dense_new p
    else if (e =? 2)%N then dense_mul_ref p p
    else if (e mod 2 =? 0)%N then
      h <- dense_pow f p (e / 2) ;; dense_pow f h 2
    else
      h <- dense_pow f p (e - 1) ;; dense_mul_ref p h
  end.

(** polynomial.rs 73-84: vec_sub_w_scale *)
Definition vec_sub_w_scale (lhs : list T) (lhs_degree : N) (rhs : list T) (rhs_deg : N) (scale : T)
  : res (list T) :=
  l1 <- usub (n_chk O) (len lhs) lhs_degree ;; loc <- usub (n_chk O) l1 1 ;;
  r1 <- usub (n_chk O) (len rhs) rhs_deg ;; rloc <- usub (n_chk O) r1 1 ;;
  (if (loc <=? len lhs)%N && (rloc <=? len rhs)%N then
     tail <- slice_from lhs (N.to_nat loc) ;;
     rtail <- slice_from rhs (N.to_nat rloc) ;;
     tail' <- zipM (fun l r => p <- mul O r scale ;; sub O l p) tail rtail ;;
     Ok (firstn (N.to_nat loc) lhs ++ tail')
   else Panic PIndex).

(** polynomial.rs 501-512: the loop of div_mod *)
Fixpoint div_loop (fuel : nat) (rhs : list T) (rhs_first : T) (rhs_deg offset : N)
    (coeff : T) (self_degree : N) (remainder dv : list T) : res (list T * list T) :=
  match fuel with
  | 0%nat => Fuel
  | S f =>
    if (rhs_deg <=? self_degree)%N then
      scale <- div O coeff rhs_first ;;
      remainder' <- vec_sub_w_scale remainder self_degree rhs rhs_deg scale ;;
      i <- usub (n_chk O) offset self_degree ;;
      dv' <- update dv i (fun _ => Ok scale) ;;
      match first_term remainder' with
      | ZeroTerm => Ok (dv', remainder')
      | TTerm c d => div_loop f rhs rhs_first rhs_deg offset c d remainder' dv'
      end
    else Ok (dv, remainder)
  end.

(** polynomial.rs 477-515: div_mod.  [fuel] bounds the number of loop rounds. *)
Definition dense_div_mod (fuel : nat) (p rhs : list T) : res (list T * list T) :=
  match first_term rhs with
  | ZeroTerm => Panic PZeroPoly
  | TTerm rhs_first rhs_deg =>
    match first_term p with
    | ZeroTerm => Ok (dense_zero, p)
    | TTerm coeff self_degree =>
      if (self_degree <? rhs_deg)%N then Ok (dense_zero, p)
      else
        n1 <- usub (n_chk O) self_degree rhs_deg ;; n <- uadd (n_chk O) n1 1 ;;
        dv <- vec_repeat (n_max_len O) (zero O) n ;;
        '(dv', r) <- div_loop fuel rhs rhs_first rhs_deg self_degree coeff self_degree p dv ;;
        q <- dense_new dv' ;; r' <- dense_new r ;; Ok (q, r')
    end
  end.

(** polynomial.rs 523-525: floor_div *)
Definition dense_floor_div (fuel : nat) (p rhs : list T) : res (list T) :=
  qr <- dense_div_mod fuel p rhs ;; Ok (fst qr).

(** polynomial.rs 553-562: the loop of Rem::rem; note that it inspects [self] ([p]), not
    the remainder. *)
Fixpoint rem_loop (fuel : nat) (p rhs : list T) (rhs_first : T) (rhs_deg : N)
    (scale : T) (self_degree : N) (remainder : list T) : res (list T) :=
  match fuel with
  | 0%nat => Fuel
  | S f =>
    if (rhs_deg <=? self_degree)%N then
      remainder' <- vec_sub_w_scale remainder self_degree rhs rhs_deg scale ;;
      match first_term p with
      | ZeroTerm => Ok remainder'
      | TTerm c d =>
        scale' <- div O c rhs_first ;;
        rem_loop f p rhs rhs_first rhs_deg scale' d remainder'
      end
    else Ok remainder
  end.

(** polynomial.rs 535-565: Rem::rem *)
Definition dense_rem (fuel : nat) (p rhs : list T) : res (list T) :=
  match first_term rhs with
  | ZeroTerm => Panic PZeroPoly
  | TTerm rhs_first rhs_deg =>
    match first_term p with
    | ZeroTerm => Ok p
    | TTerm coeff d =>
      if (d <? rhs_deg)%N then Ok p
      else
        scale <- div O coeff rhs_first ;;
        r <- rem_loop fuel p rhs rhs_first rhs_deg scale d p ;;
        dense_new r
    end
  end.

(** polynomial.rs 589-598: the loop of RemAssign::rem_assign *)
Fixpoint rem_assign_loop (fuel : nat) (rhs : list T) (rhs_first : T) (rhs_deg : N)
    (scale : T) (self_degree : N) (p : list T) : res (list T) :=
  match fuel with
  | 0%nat => Fuel
  | S f =>
    if (rhs_deg <=? self_degree)%N then
      p' <- vec_sub_w_scale p self_degree rhs rhs_deg scale ;;
      match first_term p' with
      | ZeroTerm => Ok p'
      | TTerm c d =>
        scale' <- div O c rhs_first ;;
        rem_assign_loop f rhs rhs_first rhs_deg scale' d p'
      end
    else Ok p
  end.

(** polynomial.rs 573-599: RemAssign::rem_assign *)
Definition dense_rem_assign (fuel : nat) (p rhs : list T) : res (list T) :=
  match first_term rhs with
  | ZeroTerm => Panic PZeroPoly
  | TTerm rhs_first rhs_deg =>
    match first_term p with
    | ZeroTerm => Ok p
    | TTerm coeff d =>
      if (d <? rhs_deg)%N then Ok p
      else
        scale <- div O coeff rhs_first ;;
        rem_assign_loop fuel rhs rhs_first rhs_deg scale d p
    end
  end.

(** [Iterator::eq] on the term iterators: element by element, and equal length. *)
Fixpoint terms_eqb (a b : list (T * N)) : bool :=
  match a, b with
  | [], [] => true
  | (c, d) :: a', (c', d') :: b' => (eqb O c c' && (d =? d')%N) && terms_eqb a' b'
  | _, _ => false
  end.

(** polynomial.rs 619-621: eq *)
Definition dense_eq (a b : list T) : res bool :=
  ta <- dense_terms a ;; tb <- dense_terms b ;; Ok (terms_eqb ta tb).

(** polynomial.rs 668-671: neg *)
Definition dense_neg (a : list T) : res (list T) := mapM (neg O) a.

(** [for (x, y) in l[offset..].iter_mut().zip(m)] *)
Definition zip_suffix (f : T -> T -> res T) (l : list T) (offset : nat) (m : list T) : res (list T) :=
  tail <- slice_from l offset ;;
  tail' <- zipM f tail m ;;
  Ok (firstn offset l ++ tail').

(** polynomial.rs 690-708: SubAssign by value (also 680-683: Sub by value) *)
Definition dense_sub_assign (a b : list T) : res (list T) :=
  if (length a <? length b)%nat then
    let offset := (length b - length a)%nat in
    r <- mapM (neg O) (firstn offset b) ;;
    l <- zipM (fun t v => sub O v t) (skipn offset b) a ;;
    Ok (r ++ l)
  else
    zip_suffix (fun t v => sub O t v) a (length a - length b) b.

(** polynomial.rs 680-683 *)
Definition dense_sub (a b : list T) : res (list T) := dense_sub_assign a b.

(** polynomial.rs 727-744: SubAssign by reference (also 717-720: Sub by reference) *)
Definition dense_sub_assign_ref (a b : list T) : res (list T) :=
  if (length a <? length b)%nat then
    let offset := (length b - length a)%nat in
    l <- zipM (fun x y => sub O x y) a (skipn offset b) ;;
    r <- mapM (neg O) (firstn offset b) ;;
    Ok (r ++ l)
  else
    zip_suffix (fun t v => sub O t v) a (length a - length b) b.

(** polynomial.rs 753-767: Add *)
Definition dense_add (a b : list T) : res (list T) :=
  let '(terms, small) := if (length a <? length b)%nat then (b, a) else (a, b) in
  r <- zip_suffix (fun t v => add O t v) terms (length terms - length small) small ;;
  dense_new r.

(** polynomial.rs 771-787: AddAssign *)
Definition dense_add_assign (a b : list T) : res (list T) :=
  if (length a <? length b)%nat then
    zip_suffix (fun t v => add O t v) b (length b - length a) a
  else
    zip_suffix (fun t v => add O t v) a (length a - length b) b.

(** polynomial.rs 859-861: Mul<N> *)
Definition dense_scale (a : list T) (c : T) : res (list T) :=
  r <- mapM (fun x => mul O x c) a ;; dense_new r.
(** polynomial.rs 865-869: MulAssign<N> *)
Definition dense_scale_assign (a : list T) (c : T) : res (list T) := mapM (fun x => mul O x c) a.
(** polynomial.rs 878-880: Div<N> *)
Definition dense_div_scalar (a : list T) (c : T) : res (list T) :=
  r <- mapM (fun x => div O x c) a ;; dense_new r.
(** polynomial.rs 884-888: DivAssign<N> *)
Definition dense_div_scalar_assign (a : list T) (c : T) : res (list T) := mapM (fun x => div O x c) a.

(** [terms.extend(vec![zero; k])] *)
Definition extend_zeros (l : list T) (k : N) : res (list T) :=
  z <- vec_repeat (n_max_len O) (zero O) k ;;
  _ <- vec_grow (n_max_len O) l k ;;
  Ok (l ++ z).

(** polynomial.rs 894-903: Shl, and 919-933: Shr, which call each other on negative
    amounts.  [left] = true is Shl.  [fuel] bounds the depth of mutual calls. *)
Fixpoint dense_shift (fuel : nat) (left : bool) (p : list T) (k : Z) : res (list T) :=
  match fuel with
  | 0%nat => Fuel
  | S f =>
    if (k <? 0)%Z then k' <- neg_i32 (n_chk O) k ;; dense_shift f (negb left) p k'
    else if left then
      terms <- slice_from p (first_nonzero_index p) ;;
      extend_zeros terms (Z.to_N k)
    else
      let rhs := Z.to_N k in
      let ind := first_nonzero_index p in
      if (len p <? rhs)%N then Ok []
      else slice p ind (length p - N.to_nat rhs)
  end.

(** polynomial.rs 907-913: ShlAssign, and 937-948: ShrAssign. *)
Fixpoint dense_shift_assign (fuel : nat) (left : bool) (p : list T) (k : Z) : res (list T) :=
  match fuel with
  | 0%nat => Fuel
  | S f =>
    if (k <? 0)%Z then k' <- neg_i32 (n_chk O) k ;; dense_shift_assign f (negb left) p k'
    else if left then extend_zeros p (Z.to_N k)
    else
      let rhs := Z.to_N k in
      if (len p <? rhs)%N then Ok []
      else slice p 0 (length p - N.to_nat rhs)
  end.

End Dense.
