(** Shared vocabulary of the model: Python exceptions as values, and the few
    numpy/Python list primitives the code is built from.  Nothing here is
    specific to sparse-ir. *)
From Coq Require Import List ZArith Bool Reals.
Import ListNotations.

(** Exception classes raised by the modelled code (directly or through numpy). *)
Inductive exn :=
| ValueError | TypeError | IndexError | KeyError | AttributeError
| NotImplementedError | RuntimeError | AxisError | OverflowError | ZeroDivisionError
| AssertionError.

(** Result of a Python call: a value or a raised exception. *)
Inductive res (A : Type) := Ok (a : A) | Raise (e : exn).
Arguments Ok {A} a.
Arguments Raise {A} e.

Definition bind {A B} (r : res A) (k : A -> res B) : res B :=
  match r with Ok a => k a | Raise e => Raise e end.
Notation "'do' x <- r ; k" := (bind r (fun x => k))
  (at level 200, x name, r at level 100, k at level 200).
Notation "'do' ' p <- r ; k" := (bind r (fun x => let p := x in k))
  (at level 200, p strict pattern, r at level 100, k at level 200).

Definition is_ok {A} (r : res A) : Prop := exists a, r = Ok a.

(** numpy boolean-mask selection [x[m]]. *)
Fixpoint mask {A} (m : list bool) (l : list A) : list A :=
  match m, l with
  | b :: m', x :: l' => if b then x :: mask m' l' else mask m' l'
  | _, _ => []
  end.

(** Element-wise binary operation on equally long 1-D arrays. *)
Fixpoint map2 {A B C} (f : A -> B -> C) (l : list A) (m : list B) : list C :=
  match l, m with
  | x :: l', y :: m' => f x y :: map2 f l' m'
  | _, _ => []
  end.

(** [np.sort] on a 1-D array (insertion sort over a decidable total order). *)
Fixpoint insert_by {A} (leb : A -> A -> bool) (x : A) (l : list A) : list A :=
  match l with
  | [] => [x]
  | y :: l' => if leb x y then x :: l else y :: insert_by leb x l'
  end.
Fixpoint sort_by {A} (leb : A -> A -> bool) (l : list A) : list A :=
  match l with
  | [] => []
  | x :: l' => insert_by leb x (sort_by leb l')
  end.

(** [np.unique] after sorting: drop repetitions of adjacent equal elements. *)
Fixpoint dedup_by {A} (eqb : A -> A -> bool) (l : list A) : list A :=
  match l with
  | [] => []
  | x :: l' =>
      match dedup_by eqb l' with
      | [] => [x]
      | y :: r => if eqb x y then y :: r else x :: y :: r
      end
  end.

(** Decidable order on the reals, for comparisons made by the code. *)
Definition Rleb (x y : R) : bool := if Rle_dec x y then true else false.
Definition Rltb (x y : R) : bool := if Rlt_dec x y then true else false.
Definition Reqb (x y : R) : bool := if Req_EM_T x y then true else false.

Definition zsort : list Z -> list Z := sort_by Z.leb.
Definition rsort : list R -> list R := sort_by Rleb.
Definition zunique (l : list Z) : list Z := dedup_by Z.eqb (zsort l).
Definition runique (l : list R) : list R := dedup_by Reqb (rsort l).

(** Python slice [l[:stop]] with an integer stop (negative counts from the end). *)
Definition slice_to {A} (stop : Z) (l : list A) : list A :=
  if (stop <? 0)%Z
  then firstn (Z.to_nat (Z.of_nat (length l) + stop)) l
  else firstn (Z.to_nat stop) l.

(** All but the last element, [l[:-1]]. *)
Definition init {A} (l : list A) : list A := removelast l.
