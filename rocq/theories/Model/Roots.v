(** Model of src/sparse_ir/_roots.py.

    Function values are of an arbitrary type [V]; the code only looks at their
    sign bit and at whether they compare equal to zero, so signed zeros and NaN
    are covered by instantiating [signbit] and [iszero]. *)
From Coq Require Import List ZArith Bool Reals.
From Verif.Model Require Import Base.
Import ListNotations.

Section FindAll.
Context {X V : Type}.
Variable signbit : V -> bool.   (* np.signbit *)
Variable iszero : V -> bool.    (* fx == 0 *)

(** One entry of the parallel arrays a, b, fa, fb. *)
Record bracket := mkbr { ba : X; bb : X; bfa : V; bfb : V }.

Definition zip_brackets (a b : list X) (fa fb : list V) : list bracket :=
  map2 (fun p q => mkbr (fst p) (fst q) (snd p) (snd q)) (combine a fa) (combine b fb).

(** _roots.py:55-59 / 80-84: the bracket update [np.where(towards_a, ...)]. *)
Definition halve (f : X -> V) (mid : bracket -> X) (k : bracket) : bracket :=
  let m := mid k in
  let fm := f m in
  if negb (Bool.eqb (signbit (bfa k)) (signbit fm))
  then mkbr (ba k) m (bfa k) fm
  else mkbr m (bb k) fm (bfb k).

(** _roots.py:9-47  find_all.  [bisect] is the routine for the requested type;
    [None] is a computation that never returns.  The grid is 1-D.  *)
Definition find_all (leb : X -> X -> bool)
           (bisect : list bracket -> option (list X))
           (f : X -> V) (xgrid : list X) : option (list X) :=
  let fx := map f xgrid in
  let hit := map iszero fx in
  let x_hit := mask hit xgrid in
  let sc0 := map2 (fun p q => negb (Bool.eqb (signbit p) (signbit q))) (init fx) (tl fx) in
  let nohit := map2 (fun p q => negb p && negb q) (init hit) (tl hit) in
  let sign_change := map2 andb sc0 nohit in
  if negb (existsb (fun b => b) sign_change) then Some x_hit else
  let where_a := sign_change ++ [false] in
  let where_b := false :: sign_change in
  let brs := zip_brackets (mask where_a xgrid) (mask where_b xgrid)
                          (mask where_a fx) (mask where_b fx) in
  match bisect brs with
  | None => None
  | Some x_bisect => Some (sort_by leb (x_hit ++ x_bisect))
  end.

End FindAll.
Arguments bracket : clear implicits.

(** _roots.py:71-90  _bisect_discr.  The [while True] loop and the recursion on
    the unfinished brackets consume fuel; running out of fuel is [None]. *)
Fixpoint bisect_discr {V} (signbit : V -> bool) (f : Z -> V) (fuel : nat)
         (k : list (bracket Z V)) : option (list Z) :=
  match fuel with
  | O => None
  | S fuel' =>
      let mid := fun c => ((ba c + bb c) / 2)%Z in
      let found := fun c => (ba c =? mid c)%Z in
      if existsb found k then
        let roots := map mid (filter found k) in
        if forallb found k then Some roots
        else match bisect_discr signbit f fuel' (filter (fun c => negb (found c)) k) with
             | Some more => Some (roots ++ more)
             | None => None
             end
      else bisect_discr signbit f fuel' (map (halve signbit f mid) k)
  end.

(** _roots.py:50-68  _bisect_cont.  [rnd] is the rounding applied to the result
    of every arithmetic operation: the identity for exact arithmetic, round to
    nearest double for IEEE arithmetic.  In one iteration the brackets are
    halved, and those now narrower than [xeps] are reported with the midpoint
    just used. *)
Fixpoint bisect_cont {V} (rnd : R -> R) (signbit : V -> bool) (f : R -> V) (xeps : R)
         (fuel : nat) (k : list (bracket R V)) : option (list R) :=
  match fuel with
  | O => None
  | S fuel' =>
      let mid := fun c => rnd (/ 2 * rnd (ba c + bb c))%R in
      let next := fun c => halve signbit f mid c in
      let found := fun c => Rltb (rnd (bb (next c) - ba (next c))%R) xeps in
      if existsb found k then
        let roots := map mid (filter found k) in
        if forallb found k then Some roots
        else match bisect_cont rnd signbit f xeps fuel'
                     (map next (filter (fun c => negb (found c)) k)) with
             | Some more => Some (roots ++ more)
             | None => None
             end
      else bisect_cont rnd signbit f xeps fuel' (map next k)
  end.

(** find_all(f, xgrid, type='discrete') on an integer grid. *)
Definition find_all_discr {V} (signbit iszero : V -> bool) (fuel : nat)
           (f : Z -> V) (xgrid : list Z) : option (list Z) :=
  find_all signbit iszero Z.leb (bisect_discr signbit f fuel) f xgrid.

(** np.abs(xgrid).max() *)
Definition maxabs (l : list R) : R := fold_right (fun x m => Rmax (Rabs x) m) 0%R l.

(** np.finfo(float).eps *)
Definition eps64 : R := (/ 2 ^ 52)%R.

(** find_all(f, xgrid) on a grid of reals: _roots.py:40-42, 47. *)
Definition find_all_cont {V} (rnd : R -> R) (signbit iszero : V -> bool) (fuel : nat)
           (f : R -> V) (xgrid : list R) : option (list R) :=
  let xeps := rnd (eps64 * maxabs xgrid)%R in
  find_all signbit iszero Rleb (bisect_cont rnd signbit f xeps fuel) f xgrid.

(** _roots.py:125-140  _bisect_discr_extremum on real-valued f. *)
Fixpoint bisect_extremum (f : Z -> R) (fuel : nat) (a b : Z) (absf_a absf_b : R)
  : option Z :=
  match fuel with
  | O => None
  | S fuel' =>
      let d := (b - a)%Z in
      if (d <=? 1)%Z then Some (if Rltb absf_b absf_a then a else b) else
      if (d =? 2)%Z then Some (a + 1)%Z else
      let m := ((a + b) / 2)%Z in
      let n := (m + 1)%Z in
      let absf_m := Rabs (f m) in
      let absf_n := Rabs (f n) in
      if Rltb absf_n absf_m
      then bisect_extremum f fuel' a n absf_a absf_n
      else bisect_extremum f fuel' m b absf_m absf_b
  end.

(** signbit of a real (no signed zeros). *)
Definition rsignbit (x : R) : bool := Rltb x 0.

(** All results of a list of possibly non-terminating computations. *)
Fixpoint traverse {A} (l : list (option A)) : option (list A) :=
  match l with
  | [] => Some []
  | Some a :: l' => match traverse l' with Some r => Some (a :: r) | None => None end
  | None :: _ => None
  end.

(** _roots.py:93-122  discrete_extrema.  The outer option is non-termination.
    [absfx[1]] (line 117) raises IndexError on a grid with fewer than two
    points. *)
Definition discrete_extrema (fuel : nat) (f : Z -> R) (xgrid : list Z)
  : option (res (list Z)) :=
  let fx := map f xgrid in
  let absfx := map Rabs fx in
  let gx := map2 (fun p q => (q - p)%R) (init fx) (tl fx) in
  let sgx := map rsignbit gx in
  let where_ := map2 (fun p q => negb (Bool.eqb p q)) (init sgx) (tl sgx) in
  let where_a := where_ ++ [false; false] in
  let where_b := false :: false :: where_ in
  let brs := zip_brackets (mask where_a xgrid) (mask where_b xgrid)
                          (mask where_a absfx) (mask where_b absfx) in
  match traverse (map (fun c => bisect_extremum f fuel (ba c) (bb c) (bfa c) (bfb c)) brs) with
  | None => None
  | Some inner =>
      match xgrid, absfx, fx with
      | x0 :: _, a0 :: a1 :: _, f0 :: f1 :: _ =>
          let first :=
            if Rltb a1 a0 || negb (Bool.eqb (rsignbit f0) (rsignbit f1))
            then [x0] else [] in
          match rev xgrid, rev absfx, rev fx with
          | xl :: _, al :: al' :: _, fl :: fl' :: _ =>
              let last_ :=
                if Rltb al' al || negb (Bool.eqb (rsignbit fl) (rsignbit fl'))
                then [xl] else [] in
              Some (Ok (first ++ inner ++ last_))
          | _, _, _ => Some (Raise IndexError)
          end
      | _, _, _ => Some (Raise IndexError)
      end
  end.
