(** Specification vocabulary for argument validation and for the shared
    method decorator. *)
From Coq Require Import List ZArith Bool Reals.
From Verif.Model Require Import Base Util Ravel.
Import ListNotations.

(** The values an array holds. *)
Definition values_of (n : nparr) : list xr :=
  match n with IntArr l => map (fun z => Fin (IZR z)) l | FltArr l => l end.

(** [x] is the integer [z], and [z] fits into 64 bits. *)
Definition is_int64 (x : xr) (z : Z) : Prop :=
  x = Fin (IZR z) /\ (- 2 ^ 63 <= z < 2 ^ 63)%Z.

(** Integer arrays hold 64-bit integers. *)
Definition int_array_ok (n : nparr) : Prop :=
  match n with
  | IntArr l => Forall (fun z => - 2 ^ 63 <= z < 2 ^ 63)%Z l
  | FltArr _ => True
  end.

(** Fermions have odd, bosons even reduced frequencies. *)
Definition parity_ok (zeta : option Z) (z : Z) : Prop :=
  match zeta with
  | None => True
  | Some 0%Z => Z.Even z
  | Some 1%Z => Z.Odd z
  | Some _ => False
  end.

(** [x] is an ordinary number within [a, b]. *)
Definition inside (a b : R) (x : xr) : Prop := exists r, x = Fin r /\ (a <= r <= b)%R.

(** The object of the most recent attribute access in a history. *)
Definition last_access {Obj Arg} (h : list (event Obj Arg)) : option Obj :=
  fold_left (fun acc e => match e with Access _ o => o | Call _ _ => acc end) h None.

(** Number of calls in a history, i.e. position of the next result. *)
Definition calls {Obj Arg} (h : list (event Obj Arg)) : nat :=
  length (filter (fun e => match e with Call _ _ => true | _ => false end) h).

(** The history of one thread that evaluates [o.method(x)] for a list of
    pairs (o, x): each evaluation is an access followed by a call. *)
Definition evaluations {Obj Arg} (t : nat) (l : list (Obj * Arg)) : list (event Obj Arg) :=
  flat_map (fun p => [Access t (Some (fst p)); Call t (snd p)]) l.

(** [h] is an interleaving of the programs [prog t] of all threads [t]. *)
Definition interleaving {Obj Arg} (prog : nat -> list (Obj * Arg)) (h : list (event Obj Arg)) : Prop :=
  forall t, filter (fun e => Nat.eqb (thread_of e) t) h = evaluations t (prog t).
