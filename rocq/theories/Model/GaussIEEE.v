(** Quadrature rules and sampled kernel matrices in rounded arithmetic:
    _gauss.py and sve.py with every addition, multiplication, division and
    square root rounded by [rd]; comparisons are exact.  With the identity for
    [rd] these are the definitions of Model/Gauss.v and Model/Compute.v (theorem
    C89_exact_arithmetic).  Overflow is not modelled. *)
From Coq Require Import ZArith Bool Reals.
From Coq Require Import List.
From Verif.Model Require Import Base Util Num Gauss Kernel KernelIEEE.
Import ListNotations.
Open Scope R_scope.

(** _gauss.py:34-41, Rule.reseat; the distances are passed on, so that
    Rule.__init__ computes nothing. *)
Definition reseat_rd (rd : R -> R) (r : rule) (a b : R) : rule :=
  let scaling := rd (rd (b - a) / rd (rb r - ra r)) in
  Rule (map (fun t => rd (rd (scaling * rd (t - rd (rd (rb r + ra r) / 2))) + rd (rd (b + a) / 2))) (rx r))
       (map (fun t => rd (t * scaling)) (rw r))
       (map (fun t => rd (t * scaling)) (rfw r))
       (map (fun t => rd (t * scaling)) (rbw r))
       a b.

(** _gauss.py:76-82, the loop of Rule.join. *)
Fixpoint join_parts_rd (rd : R -> R) (a b prev_b : R) (rs : list rule) : res (list (list R * list R * list R * list R)) :=
  match rs with
  | [] => Ok []
  | curr :: rest =>
      if Reqb (ra curr) prev_b then
        do parts <- join_parts_rd rd a b (rb curr) rest;
        Ok ((rx curr, rw curr,
             map (fun t => rd (t + rd (ra curr - a))) (rfw curr),
             map (fun t => rd (t + rd (b - rb curr))) (rbw curr)) :: parts)
      else Raise ValueError
  end.

(** _gauss.py:65-85, Rule.join. *)
Definition join_rd (rd : R -> R) (rs : list rule) : res rule :=
  match rs with
  | [] => Ok (Rule [] [] [] [] (-1) 1)
  | r0 :: _ =>
      let a := ra r0 in
      let b := rb (last rs r0) in
      do parts <- join_parts_rd rd a b a rs;
      Ok (Rule (concat (map (fun p => fst (fst (fst p))) parts))
               (concat (map (fun p => snd (fst (fst p))) parts))
               (concat (map (fun p => snd (fst p)) parts))
               (concat (map (fun p => snd p) parts))
               a b)
  end.

(** _gauss.py:48-57, Rule.piecewise. *)
Definition piecewise_rd (rd : R -> R) (r : rule) (edges : list R) : res rule :=
  let start := init edges in
  let stop := tl edges in
  if forallb (fun x => x) (map2 (fun s t => Rltb s t) start stop)
  then join_rd rd (map2 (reseat_rd rd r) start stop)
  else Raise ValueError.

(** kernel.py:488-494, matrix_from_gauss. *)
Definition kernel_matrix_rd (rd : R -> R) (f : tfun) (k : kernel) (gx gy : rule) : res (list (list R)) :=
  kernel_call_rd rd f k (map Fin (rx gx)) (map Fin (rx gy)) (Some (rfw gx)) (Some (rbw gx)).
Definition reduced_matrix_rd (rd : R -> R) (f : tfun) (r : reduced) (gx gy : rule) : res (list (list R)) :=
  reduced_call_rd rd f r (map Fin (rx gx)) (map Fin (rx gy)) (Some (rfw gx)) (Some (rbw gx)).

(** sve.py:176-177: the square roots of the weights. *)
Definition sqrtw_rd (rd : R -> R) (g : rule) : list R := map (fun w => rd (sqrt w)) (rw g).

(** sve.py:180-183, SamplingSVE.matrices: the kernel matrix [A] multiplied in place. *)
Definition weighted_rd (rd : R -> R) (gx gy : rule) (A : list (list R)) : list (list R) :=
  map2 (fun row w => map2 (fun a v => rd (a * v)) (map (fun a => rd (a * w)) row) (sqrtw_rd rd gy)) A (sqrtw_rd rd gx).

(** sve.py:162-184: the rules on the given segments, and the matrix. *)
Definition sampling_matrix_rd (rd : R -> R) (call : rule -> rule -> res (list (list R))) (r : rule) (segs_x segs_y : list R)
  : res (list (list R)) :=
  do gx <- piecewise_rd rd r segs_x;
  do gy <- piecewise_rd rd r segs_y;
  do A <- call gx gy;
  Ok (weighted_rd rd gx gy A).
