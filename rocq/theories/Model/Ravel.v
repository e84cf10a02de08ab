(** Model of the method decorator in src/sparse_ir/_util.py:7-37 as a state
    machine.  One decorator object exists per decorated method of a class; it
    is shared by all instances of that class and by all threads. *)
From Coq Require Import List Bool Arith.
From Verif.Model Require Import Base.
Import ListNotations.

Section Ravel.
Context {Obj Arg Val : Type}.

(** _util.py:18-20: the decorator's mutable state is the attribute [instance]. *)
Definition dstate := option Obj.
Definition d_init : dstate := None.

(** _util.py:24-26  [__get__]: attribute access [obj.method] (Some obj) or
    [Class.method] (None) overwrites [instance] and returns the decorator. *)
Definition d_get (o : option Obj) (_ : dstate) : dstate := o.

(** _util.py:28-33  [__call__] evaluates [inner(instance, x)] if an instance is
    stored, and [inner(x)] otherwise, which raises TypeError because the
    decorated functions take two arguments. *)
Definition d_call (inner : Obj -> Arg -> Val) (st : dstate) (x : Arg) : res Val :=
  match st with
  | None => Raise TypeError
  | Some o => Ok (inner o x)
  end.

(** What client code can do with the decorator: access the attribute, or call
    the object a previous access returned.  Every event carries the thread
    performing it. *)
Inductive event :=
| Access (t : nat) (o : option Obj)
| Call (t : nat) (x : Arg).

Definition thread_of (e : event) : nat :=
  match e with Access t _ => t | Call t _ => t end.

(** Runs a history from a decorator state; returns the results of its calls
    in order, and the final state. *)
Fixpoint run (inner : Obj -> Arg -> Val) (st : dstate) (h : list event)
  : list (res Val) * dstate :=
  match h with
  | [] => ([], st)
  | Access _ o :: h' => run inner (d_get o st) h'
  | Call _ x :: h' =>
      let (rs, st') := run inner st h' in (d_call inner st x :: rs, st')
  end.

End Ravel.
Arguments event : clear implicits.
Arguments dstate : clear implicits.
