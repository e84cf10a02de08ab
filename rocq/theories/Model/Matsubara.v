(** Model of the Matsubara sampling point selection: poly.py:210-211, 257-283,
    455-466 and basis.py:260-312.

    A Fourier-transformed basis function enters only through the real-valued
    function [n -> part(uhat(2n + zeta))] that is searched (poly.py:285-299); it
    is an arbitrary function [Z -> R].  numpy integers are unbounded here. *)
From Coq Require Import List ZArith Bool Reals.
From Flocq Require Import Core.
From Verif.Model Require Import Base Roots.
Import ListNotations.
Open Scope Z_scope.

(** The [freq] attribute, for the two values FiniteTempBasis uses
    (basis.py:88); [zeta] is poly.py:217. *)
Inductive freq := Even | Odd.
Definition zeta (q : freq) : Z := match q with Even => 0 | Odd => 1 end.

(** poly.py:455-466  _symmetrize_matsubara *)
Fixpoint nondecreasing (l : list Z) : bool :=
  match l with
  | x :: ((y :: _) as l') => (x <=? y) && nondecreasing l'
  | _ => true
  end.

Definition symmetrize (x0 : list Z) : res (list Z) :=
  match x0 with
  | [] => Ok x0
  | x :: rest =>
      if negb (nondecreasing x0) then Raise ValueError else
      if negb (0 <=? x) then Raise ValueError else
      if x =? 0 then Ok (map Z.opp (rev x0) ++ rest)
      else Ok (map Z.opp (rev x0) ++ x0)
  end.

(** poly.py:210-211  _DEFAULT_GRID.  [pow2 e] is the floating-point value of
    [2**e]; the exponents np.linspace(6, 25, 305) are 6 + k/16, which are exact
    doubles; [astype(int)] truncates. *)
Definition default_grid (pow2 : R -> R) : list Z :=
  map Z.of_nat (seq 0 64) ++
  map (fun k => Ztrunc (pow2 (6 + INR k / 16)%R)) (seq 0 305).

(** poly.py:257-269  extrema  and  poly.py:271-283  sign_changes, of a single
    polynomial with an explicit or default grid.  The outer option is
    non-termination of the search. *)
Definition finish (q : freq) (positive_only : bool) (x0 : list Z) : res (list Z) :=
  let x := map (fun r => 2 * r + zeta q) x0 in
  if positive_only then Ok x else symmetrize x.

Definition ft_extrema (fuel : nat) (q : freq) (f : Z -> R) (grid : list Z) (positive_only : bool)
  : option (res (list Z)) :=
  match discrete_extrema fuel f grid with
  | None => None
  | Some r => Some (do x0 <- r ; finish q positive_only x0)
  end.

Definition ft_sign_changes (fuel : nat) (q : freq) (f : Z -> R) (grid : list Z) (positive_only : bool)
  : option (res (list Z)) :=
  match find_all_discr rsignbit (fun v => Reqb v 0) fuel f grid with
  | None => None
  | Some x0 => Some (finish q positive_only x0)
  end.

(** basis.py:298-312  _fence_matsubara_sampling.  [np.round(0.025 * w)] is
    round-half-even of w/40 (0.025 is stored with relative error 2^-54, so the
    floating-point product of an integer below 2^53 hits a half-integer exactly
    when w/40 does). *)
Definition round40 (w : Z) : Z :=
  let q := (w + 20) / 40 in
  if (w + 20) mod 40 =? 0 then (if Z.even q then q else q - 1) else q.

Definition outer_points (wn : list Z) (positive_only : bool) : res (list Z) :=
  match wn, rev wn with
  | x :: _, y :: _ => Ok (if positive_only then [y] else [x; y])
  | _, _ => if positive_only then Ok [] else Raise IndexError
  end.

Definition fence_points (wn wn_outer : list Z) : list Z :=
  let wn_diff := map (fun w => 2 * round40 w) wn_outer in
  let wn1 := if (20 <=? length wn)%nat
             then wn ++ map2 (fun w d => w - Z.sgn w * d) wn_outer wn_diff else wn in
  let wn2 := if (42 <=? length wn1)%nat
             then wn1 ++ map2 (fun w d => w + Z.sgn w * d) wn_outer wn_diff else wn1 in
  zunique wn2.

Definition fence_sampling (wn : list Z) (positive_only : bool) : res (list Z) :=
  do wn_outer <- outer_points wn positive_only ;
  Ok (fence_points wn wn_outer).

(** basis.py:266-269 *)
Definition l_requested (q : freq) (L : nat) : nat :=
  match q with
  | Odd => if Nat.odd L then S L else L
  | Even => if Nat.even L then S L else L
  end.

(** basis.py:260-295  _default_matsubara_sampling_points.  [uhat] lists the
    searched functions of all basis functions available; the boolean in the
    result says whether the UserWarning of basis.py:289-292 was issued. *)
Definition default_matsubara (fuel : nat) (grid : list Z) (q : freq) (uhat : list (Z -> R))
           (L : nat) (fence positive_only : bool) : option (res (list Z * bool)) :=
  let lr := l_requested q L in
  let points :=
    match nth_error uhat lr with
    | Some f => ft_sign_changes fuel q f grid positive_only
    | None =>
        match rev uhat with
        | [] => Some (Raise IndexError)
        | f :: _ =>
            match ft_extrema fuel q f grid positive_only with
            | None => None
            | Some r => Some (do wn <- r ;
                match wn with
                | [] => Raise IndexError
                | w :: _ => Ok (if w mod 2 =? 0 then zunique (0 :: wn) else wn)
                end)
            end
        end
    end in
  match points with
  | None => None
  | Some r => Some (do wn <- r ;
      let expected := if positive_only then Nat.div (lr + 1) 2 else lr in
      let warned := negb (length wn =? expected)%nat in
      do wn' <- (if fence then fence_sampling wn positive_only else Ok wn) ;
      Ok (wn', warned))
  end.
