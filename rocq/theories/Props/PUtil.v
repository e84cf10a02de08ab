(** C01, C02, C03, C05: argument validation and the shared method decorator. *)
From Coq Require Import List ZArith Bool Reals Lra Lia.
From Verif.Model Require Import Base Util Ravel.
From Verif.Spec Require Import SUtil.
From Verif.Proofs Require Import UtilFacts.
Import ListNotations.

(** C01: accepted iff all elements are int64 integers of the right parity; the
    accepted values are returned unchanged and in order. *)
Theorem C01_reduced_matsubara_accepts_exactly :
  forall n zeta out,
    int_array_ok n -> (zeta = None \/ zeta = Some 0 \/ zeta = Some 1)%Z ->
    (check_reduced_matsubara n zeta = Ok out <->
     Forall2 is_int64 (values_of n) out /\ Forall (parity_ok zeta) out).
Proof. exact check_reduced_ok. Qed.
Print Assumptions C01_reduced_matsubara_accepts_exactly.

Theorem C01_reduced_matsubara_otherwise_valueerror :
  forall n zeta,
    (exists out, check_reduced_matsubara n zeta = Ok out) \/
    check_reduced_matsubara n zeta = Raise ValueError.
Proof. exact check_reduced_raise. Qed.
Print Assumptions C01_reduced_matsubara_otherwise_valueerror.

Example C01_negative_odd_accepted :
  check_reduced_matsubara (IntArr [-3; 1; 7]%Z) (Some 1%Z) = Ok [-3; 1; 7]%Z.
Proof. reflexivity. Qed.
Example C01_hypotheses_met_float :
  check_reduced_matsubara (FltArr [Fin (-4); Fin 2]) (Some 0%Z) = Ok [-4; 2]%Z.
Proof.
  apply C01_reduced_matsubara_accepts_exactly; simpl; auto.
  split.
  - repeat constructor; try (f_equal; lra); lia.
  - repeat constructor; [exists (-2)%Z|exists 1%Z]; reflexivity.
Qed.
Example C01_nan_rejected : check_reduced_matsubara (FltArr [Fin 1; NaN]) None = Raise ValueError.
Proof.
  destruct (C01_reduced_matsubara_otherwise_valueerror (FltArr [Fin 1; NaN]) None) as [[out H]|]; auto.
  apply C01_reduced_matsubara_accepts_exactly in H as [H _]; simpl; auto.
  inversion H as [|? ? ? ? _ H']; subst. inversion H' as [|? ? ? ? [Hn _] _]; subst. discriminate.
Qed.

(** C02: success iff every element is an ordinary number in the closed
    interval, and then the points are passed on unchanged. *)
Theorem C02_range_check :
  forall x xmin xmax,
    (Forall (inside xmin xmax) x -> check_range x xmin xmax = Ok x) /\
    (~ Forall (inside xmin xmax) x -> check_range x xmin xmax = Raise ValueError).
Proof. exact check_range_spec. Qed.
Print Assumptions C02_range_check.

Example C02_bounds_included : check_range [Fin 0; Fin 1] 0 1 = Ok [Fin 0; Fin 1].
Proof. apply C02_range_check. repeat constructor; eexists; split; eauto; lra. Qed.
Example C02_nan_rejected : check_range [Fin 0; NaN] 0 1 = Raise ValueError.
Proof.
  apply C02_range_check. intros H. inversion H as [|? ? _ H']; subst.
  inversion H' as [|? ? (r & Hr & _)]; subst. discriminate.
Qed.

(** C03 *)
Theorem C03_svd_shapes_accepted_iff :
  forall u s v ms m k n,
    check_svd_result u s v ms = Ok (m, k, n) <->
    u = [m; k] /\ s = [k] /\ v = [k; n] /\ (ms = None \/ ms = Some (m, n)).
Proof. exact check_svd_spec. Qed.
Print Assumptions C03_svd_shapes_accepted_iff.

Theorem C03_svd_shapes_otherwise_valueerror :
  forall u s v ms,
    (exists r, check_svd_result u s v ms = Ok r) \/ check_svd_result u s v ms = Raise ValueError.
Proof. exact check_svd_raise. Qed.
Print Assumptions C03_svd_shapes_otherwise_valueerror.

Example C03_concrete : check_svd_result [5; 3] [3] [3; 4] (Some (5, 4)) = Ok (5, 3, 4).
Proof. reflexivity. Qed.

(** C05: in every history, a call evaluates the object of the most recent
    attribute access, whoever made it. *)
Theorem C05_call_evaluates_last_accessed_object :
  forall (Obj Arg Val : Type) (inner : Obj -> Arg -> Val) h1 t x h2,
    nth_error (fst (run inner d_init (h1 ++ Call t x :: h2))) (calls h1) =
    Some (match last_access h1 with Some o => Ok (inner o x) | None => Raise TypeError end).
Proof. exact @call_result. Qed.
Print Assumptions C05_call_evaluates_last_accessed_object.

(** An uninterrupted [o.method(x)] evaluates [o], after any history. *)
Theorem C05_uninterrupted_evaluation_correct :
  forall (Obj Arg Val : Type) (inner : Obj -> Arg -> Val) h1 t o t' x h2,
    nth_error (fst (run inner d_init (h1 ++ Access t (Some o) :: Call t' x :: h2))) (calls h1) =
    Some (Ok (inner o x)).
Proof. exact @access_then_call. Qed.
Print Assumptions C05_uninterrupted_evaluation_correct.

(** A single thread gets every evaluation right. *)
Theorem C05_single_thread_correct :
  forall (Obj Arg Val : Type) (inner : Obj -> Arg -> Val) t l st,
    fst (run inner st (evaluations t l)) = map (fun p => Ok (inner (fst p) (snd p))) l.
Proof. exact @run_evaluations. Qed.
Print Assumptions C05_single_thread_correct.

(** Any number of threads sharing one object get every evaluation right under
    every interleaving. *)
Theorem C05_threads_sharing_one_object_correct :
  forall (Obj Arg Val : Type) (inner : Obj -> Arg -> Val) prog o h1 t x h2,
    (forall t p, In p (prog t) -> fst p = o) ->
    interleaving prog (h1 ++ Call t x :: h2) ->
    nth_error (fst (run inner d_init (h1 ++ Call t x :: h2))) (calls h1) = Some (Ok (inner o x)).
Proof. exact @interleaving_same_object. Qed.
Print Assumptions C05_threads_sharing_one_object_correct.

(** Two threads evaluating different objects: there is an interleaving in which
    the first thread receives the value of the second thread's object. *)
Theorem C05_thread_isolation_refuted :
  forall (Obj Arg Val : Type) (inner : Obj -> Arg -> Val) o1 o2 x y,
    let prog := fun t => match t with 0 => [(o1, x)] | 1 => [(o2, y)] | _ => [] end in
    let h := [Access 0 (Some o1); Access 1 (Some o2); Call 0 x; Call 1 y] in
    interleaving prog h /\
    nth_error (fst (run inner d_init h)) 0 = Some (Ok (inner o2 x)).
Proof. exact @interleaving_wrong. Qed.
Print Assumptions C05_thread_isolation_refuted.

(** Non-vacuity: a genuine interleaving of two threads on one object, and a
    stored bound method evaluating the wrong object. *)
Example C05_shared_object_interleaving :
  interleaving (fun t => match t with 0 => [(7, 1)] | 1 => [(7, 2)] | _ => [] end)
    ([Access 0 (Some 7); Access 1 (Some 7); Call 1 2] ++ Call 0 1 :: []).
Proof. intros [|[|t]]; reflexivity. Qed.
Example C05_stored_bound_method :
  fst (run Nat.add d_init [Access 0 (Some 10); Access 0 (Some 20); Call 0 1]) = [Ok 21].
Proof. reflexivity. Qed.
