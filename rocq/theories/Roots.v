(** /repo/src/polynomial/find_roots.rs, and the root methods of the polynomial types:
    monomial.rs 197-203, binomial.rs 70-81, trinomial.rs 68-112, array_polynomial.rs 142-192
    and 281-292, polynomial.rs 283-285, sparsepolynomial.rs 211-213.

    Simplifications: complex numbers ([num::Complex]) are pairs (real, imaginary);
    the external solver [roots::find_roots_sturm] is an argument [solver pass coefficients]:
    the list of its [Ok] results on the [pass]-th call; f64's [sqrt], [cbrt], [round] and
    [<] are arguments ([rops]). *)

From Coq Require Import List NArith ZArith Bool.
From Verif Require Import Base Num Terms Dense Mono Bino Trino Sparse.
Import ListNotations.

(** find_roots.rs 12-25 *)
Inductive roots (T : Type) :=
| NoRoots
| NoRootsFound
| OneRealRoot (x : T)
| TwoRealRoots (x y : T)
| ThreeRealRoots (x y z : T)
| ManyRealRoots (l : list T)
| OneComplexRoot (x : T * T)
| TwoComplexRoots (x y : T * T)
| ThreeComplexRoots (x y z : T * T)
| ManyComplexRoots (l : list (T * T))
| InfiniteRoots
| OnlyRealRoots (l : list T).
Arguments NoRoots {T}. Arguments NoRootsFound {T}. Arguments OneRealRoot {T}. Arguments TwoRealRoots {T}.
Arguments ThreeRealRoots {T}. Arguments ManyRealRoots {T}. Arguments OneComplexRoot {T}.
Arguments TwoComplexRoots {T}. Arguments ThreeComplexRoots {T}. Arguments ManyComplexRoots {T}.
Arguments InfiniteRoots {T}. Arguments OnlyRealRoots {T}.

(** What root finding needs beyond [num]. *)
Record rops (T : Type) := MkRops {
  abs_sqrt : T -> res T;      (* AbsSqrt, numerics.rs 152-224 *)
  cbrt : T -> res T;          (* Cbrt, numerics.rs 226-240 *)
  of_u8 : N -> T;             (* From<u8> *)
  round : T -> T;             (* f64::round *)
  lt : T -> T -> bool         (* < *)
}.
Arguments abs_sqrt {T}. Arguments cbrt {T}. Arguments of_u8 {T}. Arguments round {T}. Arguments lt {T}.

Section Roots.
Context {T : Type} (O : num T) (S : rops T).

(** find_roots.rs 28-33 *)
Definition discriminant_trinomial (a b c : T) : res T :=
  bb <- mul O b b ;; ac <- mul O a c ;; ac4 <- mul O ac (of_u8 S 4) ;; sub O bb ac4.

(** find_roots.rs 35-62 *)
Definition trinomial_roots (a b c : T) : res (roots T) :=
  discriminant <- discriminant_trinomial a b c ;;
  a <- mul O a (of_u8 S 2) ;;
  nb <- neg O b ;; b <- div O nb a ;;
  if is_zero O discriminant then Ok (TwoRealRoots b b)
  else
    s <- abs_sqrt S discriminant ;; sq <- div O s a ;;
    if is_pos O discriminant then
      x <- add O b sq ;; y <- sub O b sq ;; Ok (TwoRealRoots x y)
    else
      nsq <- neg O sq ;; Ok (TwoComplexRoots (b, sq) (b, nsq)).

(** find_roots.rs 80-81 *)
Definition sqr (x : T) : res T := mul O x x.
Definition cub (x : T) : res T := xx <- mul O x x ;; mul O xx x.

(** find_roots.rs 65-96 *)
Definition cubic_roots (a b c d : T) : res (roots T) :=
  nb <- neg O b ;; a3 <- mul O (of_u8 S 3) a ;; p <- div O nb a3 ;;
  p3 <- cub p ;; bc <- mul O b c ;; ta <- mul O (of_u8 S 3) a ;; ad <- mul O ta d ;; e <- sub O bc ad ;;
  a2 <- sqr a ;; sa <- mul O (of_u8 S 6) a2 ;; f <- div O e sa ;; q <- add O p3 f ;;
  a3' <- mul O (of_u8 S 3) a ;; r <- div O c a3' ;;
  q2 <- sqr q ;; p2 <- sqr p ;; rp <- sub O r p2 ;; rp3 <- cub rp ;; g <- add O q2 rp3 ;; k <- abs_sqrt S g ;;
  qk <- add O q k ;; u <- cbrt S qk ;; qk' <- sub O q k ;; v <- cbrt S qk' ;; uv <- add O u v ;; x <- add O uv p ;;
  ba <- div O b a ;; b' <- add O ba x ;;
  ca <- div O c a ;; bx <- mul O b' x ;; c' <- add O ca bx ;;
  rs <- trinomial_roots (one O) b' c' ;;
  match rs with
  | TwoRealRoots a b => Ok (ThreeRealRoots x a b)
  | TwoComplexRoots a b => Ok (ThreeComplexRoots (x, zero O) a b)
  | _ => Panic PUnreachable
  end.

(** find_roots.rs 135-149: the loop of [div] *)
Fixpoint defl_loop (fuel : nat) (root : T) (offset : N) (coeff : T) (self_degree : N) (values dv : list T) : res (list T) :=
  match fuel with
  | 0%nat => Fuel
  | Datatypes.S f =>
    if (1 <=? self_degree)%N then
      scale <- div O coeff (one O) ;;
      l1 <- usub (n_chk O) (len values) self_degree ;; loc <- usub (n_chk O) l1 1 ;;
      values <- update values loc (fun v => s <- mul O (one O) scale ;; sub O v s) ;;
      loc1 <- uadd (n_chk O) loc 1 ;;
      values <- update values loc1 (fun v => s <- mul O root scale ;; add O v s) ;;
      i <- usub (n_chk O) offset self_degree ;;
      dv <- update dv i (fun _ => Ok scale) ;;
      match first_term O values with
      | ZeroTerm => Ok dv
      | TTerm c d => defl_loop f root offset c d values dv
      end
    else Ok dv
  end.

(** find_roots.rs 118-151: div *)
Definition deflate (fuel : nat) (values : list T) (root : T) : res (list T) :=
  match first_term O values with
  | ZeroTerm => Ok []
  | TTerm coeff degree =>
    if (degree =? 1)%N then Ok []
    else
      dv <- vec_repeat (n_max_len O) (zero O) degree ;;
      defl_loop fuel root degree coeff degree values dv
  end.

(** find_roots.rs 153-162: normalize *)
Definition normalize (values : list T) : res (list T) :=
  let f_i := first_nonzero_index O values in
  if (f_i =? length values)%nat then Ok values
  else
    first <- index values (N.of_nat f_i) ;;
    tail <- slice_from values f_i ;;
    tail' <- mapM (fun v => div O v first) tail ;;
    Ok (firstn f_i values ++ tail').

(** find_roots.rs 165-205.  The outer option is the function's; a term is (coefficient,
    degree). *)
Definition find_roots_special (poly : list (T * N)) : res (option (roots T)) :=
  match poly with
  | [] => Ok (Some InfiniteRoots)
  | [(_, 0%N)] => Ok (Some NoRoots)
  | [_] => Ok (Some (ManyRealRoots [zero O]))
  | [(c1, 1%N); (c2, 0%N)] => n <- neg O c2 ;; r <- div O n c1 ;; Ok (Some (ManyRealRoots [r]))
  | (a, 2%N) :: one_or_more =>
    ' (b, c) <- match one_or_more with
                | [] => Ok (zero O, zero O)
                | [(xc, 0%N)] => Ok (zero O, xc)
                | [(xb, 1%N)] => Ok (xb, zero O)
                | [(xb, 1%N); (xc, 0%N)] => Ok (xb, xc)
                | _ => Panic PUnreachable
                end ;;
    rs <- trinomial_roots a b c ;;
    match rs with
    | TwoComplexRoots a b => Ok (Some (ManyComplexRoots [a; b]))
    | TwoRealRoots a b => Ok (Some (ManyRealRoots [a; b]))
    | _ => Panic PUnreachable
    end
  | (a, 3%N) :: one_or_more =>
    ' (b, c, d) <- match one_or_more with
                   | [] => Ok (zero O, zero O, zero O)
                   | [(xd, 0%N)] => Ok (zero O, zero O, xd)
                   | [(xc, 1%N)] => Ok (zero O, xc, zero O)
                   | [(xc, 1%N); (xd, 0%N)] => Ok (zero O, xc, xd)
                   | [(xb, 2%N)] => Ok (xb, zero O, zero O)
                   | [(xb, 2%N); (xd, 0%N)] => Ok (xb, zero O, xd)
                   | [(xb, 2%N); (xc, 1%N)] => Ok (xb, xc, zero O)
                   | [(xb, 2%N); (xc, 1%N); (xd, 0%N)] => Ok (xb, xc, xd)
                   | _ => Panic PUnreachable
                   end ;;
    rs <- cubic_roots a b c d ;;
    match rs with
    | ThreeComplexRoots a b c => Ok (Some (ManyComplexRoots [a; b; c]))
    | ThreeRealRoots a b c => Ok (Some (ManyRealRoots [a; b; c]))
    | _ => Panic PUnreachable
    end
  | _ => Ok None
  end.

(** find_roots.rs 209-281.  [vals] = poly.terms_as_vec(), [deg] = poly.degree(),
    [eval] = poly.eval. *)
Section Find.
Context (solver : nat -> list T -> list T) (dfuel : nat) (deg : degree) (eval : T -> res T).

(** find_roots.rs 255-267: one root of a pass *)
Definition take_root (st : list T * list T) (root : T) : res (list T * list T) :=
  let x := round S root in
  ex <- eval x ;; ax <- absv O ex ;; er <- eval root ;; ar <- absv O er ;;
  let root := if lt S ax ar then x else root in
  nvalues <- deflate dfuel (fst st) root ;;
  Ok (nvalues, snd st ++ [root]).

(** find_roots.rs 231-281: the loop *)
Fixpoint find_loop (fuel pass : nat) (values nvalues rts : list T) : res (roots T) :=
  match fuel with
  | 0%nat => Fuel
  | Datatypes.S f =>
    tail <- slice_from values 1 ;;
    let temp_roots := solver pass tail in
    match temp_roots with
    | [] =>
      match deg with
      | Num x =>
        if (x =? len temp_roots)%N then Ok (ManyRealRoots rts)
        else match rts with [] => Ok NoRoots | _ => Ok (OnlyRealRoots rts) end
      | NegInf => Panic PUnreachable
      end
    | _ =>
      ' (nvalues, rts) <- foldM take_root (nvalues, rts) temp_roots ;;
      match nvalues with
      | [] => match rts with [] => Ok NoRoots | _ => Ok (ManyRealRoots rts) end
      | _ =>
        nvalues <- normalize nvalues ;;
        leading <- index nvalues 0 ;;
        values <- mapM (fun val => div O val leading) nvalues ;;
        find_loop f (Datatypes.S pass) values nvalues rts
      end
    end
  end.

(** find_roots.rs 226-229: filling both vectors *)
Definition fill_step (degree : N) (leading : T) (st : list T * list T) (t : T * N) : res (list T * list T) :=
  i <- usub (n_chk O) degree (snd t) ;;
  w <- div O (fst t) leading ;;
  values <- update (fst st) i (fun _ => Ok w) ;;
  nvalues <- update (snd st) i (fun _ => Ok (fst t)) ;;
  Ok (values, nvalues).

Definition find_roots (fuel : nat) (vals : list (T * N)) : res (roots T) :=
  sp <- find_roots_special vals ;;
  match sp with
  | Some rs => Ok rs
  | None =>
    ' (leading, degree) <- index vals 0 ;;
    n <- uadd (n_chk O) degree 1 ;;
    values <- vec_repeat (n_max_len O) (zero O) n ;;
    nvalues <- vec_repeat (n_max_len O) (zero O) n ;;
    nvalues <- update nvalues 0 (fun _ => Ok leading) ;;
    rest <- slice_from vals 1 ;;
    ' (values, nvalues) <- foldM (fill_step degree leading) (values, nvalues) rest ;;
    find_loop fuel 0 values nvalues []
  end.
End Find.

(** polynomial.rs 283-285: Polynomial<f64>::roots *)
Definition dense_roots (solver : nat -> list T -> list T) (dfuel fuel : nat) (p : list T) : res (roots T) :=
  vals <- dense_terms O p ;;
  find_roots solver dfuel (dense_degree O p) (dense_eval O p) fuel vals.

(** sparsepolynomial.rs 211-213: SparsePolynomial<f64>::roots *)
Definition sparse_roots (solver : nat -> list T -> list T) (dfuel fuel : nat) (p : bmap T) : res (roots T) :=
  find_roots solver dfuel (sparse_degree O p) (sparse_eval O p) fuel (sparse_terms O p).

(** monomial.rs 197-203 *)
Definition mono_root (m : mono T) : roots T :=
  match mono_degree O m with
  | NegInf => InfiniteRoots
  | Num 0 => NoRoots
  | Num _ => OneRealRoot (zero O)
  end.

(** binomial.rs 70-81; the same code in array_polynomial.rs 281-292 *)
Definition bino_root (b : bino T) : res (roots T) :=
  if is_zero O (bc0 b) then
    Ok (if is_zero O (bc1 b) then InfiniteRoots else NoRoots)
  else n <- neg O (bc1 b) ;; r <- div O n (bc0 b) ;; Ok (OneRealRoot r).

(** trinomial.rs 68-71, 75-78; the same code in array_polynomial.rs 142-152 *)
Definition trino_discriminant (t : trino T) : res T := discriminant_trinomial (tc0 t) (tc1 t) (tc2 t).
Definition trino_roots (t : trino T) : res (roots T) := trinomial_roots (tc0 t) (tc1 t) (tc2 t).

(** trinomial.rs 80-100; the same code in array_polynomial.rs 154-180.  A factor is a
    LinearBinomial over Complex. *)
Definition trino_complex_factors (t : trino T) : res (T * bino (T * T) * bino (T * T)) :=
  rs <- trino_roots t ;;
  match rs with
  | TwoComplexRoots ra rb =>
    nz1 <- neg O (zero O) ;; nz2 <- neg O (zero O) ;;
    Ok (tc0 t, MkBino (one O, nz1) ra, MkBino (one O, nz2) rb)
  | TwoRealRoots a b =>
    na <- neg O a ;; nb <- neg O b ;;
    Ok (tc0 t, MkBino (one O, zero O) (na, zero O), MkBino (one O, zero O) (nb, zero O))
  | _ => Panic PUnreachable
  end.

(** trinomial.rs 102-112; the same code in array_polynomial.rs 182-192 *)
Definition trino_real_factors (t : trino T) : res (option (T * bino T * bino T)) :=
  rs <- trino_roots t ;;
  match rs with
  | TwoRealRoots ra rb =>
    na <- neg O ra ;; nb <- neg O rb ;;
    Ok (Some (tc0 t, MkBino (one O) na, MkBino (one O) nb))
  | _ => Ok None
  end.

End Roots.
