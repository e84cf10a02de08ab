(** Model of src/sparse_ir/adapter.py, the replacement for the irbasis module.
    Arithmetic is exact; frequencies are integers. *)
From Coq Require Import String ZArith Arith Bool Reals.
From Coquelicot Require Import Coquelicot.
From Coq Require Import List.
From Verif.Model Require Import Base Util Num Roots Poly FT SVE Basis NDArray.
Import ListNotations.
Open Scope R_scope.

(** A computation that may fail to end ([None]) or raise. *)
Definition obind {A B} (r : option (res A)) (k : A -> option (res B)) : option (res B) :=
  match r with
  | None => None
  | Some (Raise e) => Some (Raise e)
  | Some (Ok a) => k a
  end.
Notation "'run' x <- r ; k" := (obind r (fun x => k))
  (at level 200, x name, r at level 100, k at level 200).

(** np.linspace(a, b, n) for n >= 2 *)
Definition linspace (a b : R) (n : nat) : list R :=
  map (fun i => a + INR i * ((b - a) / INR (n - 1))) (seq 0 n).

(** adapter.py:143-146: the double exponential mesh. *)
Definition mesh_size : nat := Z.to_nat 10000.
Definition mesh : list R := map (fun t => tanh (/ 2 * PI * sinh t)) (linspace (-3) 3 mesh_size).

(** adapter.py:154-160: the while loop on a bracket with b < a. *)
Fixpoint close_in (ulx : R -> res R) (u_a : R) (fuel : nat) (a b : R) : option (res R) :=
  match fuel with
  | O => None
  | S fuel' =>
      if Rltb (/ 10 ^ 14) (a - b) then
        let half_point := / 2 * (a + b) in
        run v <- Some (ulx half_point);
        if Rltb 0 (v * u_a) then close_in ulx u_a fuel' half_point b
        else close_in ulx u_a fuel' a half_point
      else Some (Ok (/ 2 * (a + b)))
  end.

(** adapter.py:148-161: the loop over neighbouring mesh points. *)
Fixpoint search_pairs (ulx : R -> res R) (fuel : nat) (xvec : list R) : option (res (list R)) :=
  match xvec with
  | x0 :: ((x1 :: _) as rest) =>
      run u0 <- Some (ulx x0);
      run u1 <- Some (ulx x1);
      if Rltb (u0 * u1) 0 then
        run z <- close_in ulx u1 fuel x1 x0;
        run zs <- search_pairs ulx fuel rest;
        Some (Ok (z :: zs))
      else search_pairs ulx fuel rest
  | _ => Some (Ok [])
  end.

(** adapter.py:141-161, _find_roots. *)
Definition find_roots (ulx : R -> res R) (fuel : nat) : option (res (list R)) := search_pairs ulx fuel mesh.

(** 0.5 * (x[:-1] + x[1:]) *)
Definition midpoints (x : list R) : list R := map2 (fun a b => / 2 * (a + b)) (init x) (tl x).

(** adapter.py:164-169, _start_guesses(n). *)
Definition start_guesses (n : nat) : list Z :=
  let x1 := map Z.of_nat (seq 0 n) in
  let x2 := map (fun t => Rtrunc (exp t)) (linspace (ln (INR n)) (ln (10 ^ 8)) n) in
  zunique (x1 ++ x2).

(** np.argmax: the first index of the largest value; ValueError if there is none. *)
Fixpoint argmax_from (best : R) (bi i : nat) (l : list R) : nat :=
  match l with
  | [] => bi
  | x :: l' => if Rltb best x then argmax_from x i (S i) l' else argmax_from best bi (S i) l'
  end.
Definition argmax (l : list R) : res nat :=
  match l with [] => Raise ValueError | x :: l' => Ok (argmax_from x 0 1 l') end.

(** x.nonzero()[0] *)
Definition nonzero_idx (m : list bool) : list nat := mask m (seq 0 (List.length m)).

(** adapter.py:186-195, _sampling_points. *)
Definition sampling_points (fn : list R) : res (list nat) :=
  let fn_abs := map Rabs fn in
  let sign_flip := map2 (fun p q => Rltb (p * q) 0) (tl fn) (init fn) in
  let bounds := 0%nat :: map S (nonzero_idx sign_flip) ++ [List.length fn] in
  collect (map2 (fun start stop =>
                   do k <- argmax (firstn (stop - start) (skipn start fn_abs)); Ok (k + start)%nat)
                (init bounds) (tl bounds)).

(** adapter.py:198-207, _full_interval. *)
Definition full_interval (sample : list Z) (stat : string) : res (list Z) :=
  if String.eqb stat "F" then Ok (map (fun n => - n - 1)%Z (rev sample) ++ sample)
  else match sample with
       | [] => Raise IndexError
       | n0 :: rest =>
           let sample' := if (n0 =? 0)%Z then rest else sample in
           Ok (map Z.opp (rev sample') ++ 0%Z :: sample')
       end.

(** adapter.py:47-59, Basis. *)
Record abasis := ABasis { astat : string; alam : R; au : vpoly; as_ : list R; av : vpoly; auhat : ft }.
Definition adapter_basis (statistics : string) (lam : R) (r : sve_result) : res abasis :=
  do ' (u, s, v) <- part r None None;
  do q <- even_odd statistics;
  do uhat <- ft_init u q (AsympAt (40 * lam)) None;
  Ok (ABasis statistics lam u s v uhat).

(** adapter.py:35-44, load: the kernels for "F" and "B" (by the attributes the
    basis and the SVE look at); [compute] is sve.compute.  The boolean says
    whether the warning is issued. *)
Definition load (compute : kern -> option R -> res sve_result) (warn_accuracy : bool)
           (statistics : string) (lam : R) : res abasis * bool :=
  (do k <- (if String.eqb statistics "F" then Ok (logistic lam)
            else if String.eqb statistics "B" then
              (if Rltb lam 0 then Raise ValueError else Ok (Kern (Some lam) 1))
            else Raise KeyError);
   do r <- compute k None; adapter_basis statistics lam r, warn_accuracy).

(** adapter.py:70-92 and 132-137: dim, sl, ulx, d_ulx, vly, d_vly at one point. *)
Definition adim (b : abasis) : nat := List.length (as_ b).
Definition sl (b : abasis) (l : Z) : res R :=
  match pyindex (as_ b) l with Some s => Ok s | None => Raise IndexError end.
Definition ulx (b : abasis) (l : Z) (x : R) : res R := value (au b) l x.
Definition d_ulx (b : abasis) (l : Z) (x : R) (order : nat) : res R := value (vderiv order (au b)) l x.
Definition vly (b : abasis) (l : Z) (y : R) : res R := value (av b) l y.
Definition d_vly (b : abasis) (l : Z) (y : R) (order : nat) : res R := value (vderiv order (av b)) l y.

(** np.squeeze: axes of length one are removed. *)
Fixpoint unsqueeze (shape idx : list nat) : list nat :=
  match shape with
  | [] => []
  | n :: s => if Nat.eqb n 1 then 0%nat :: unsqueeze s idx
              else match idx with i :: idx' => i :: unsqueeze s idx' | [] => [] end
  end.
Definition squeeze {A} (x : nd A) : nd A :=
  Nd (filter (fun n => negb (Nat.eqb n 1)) (shp x)) (fun idx => elt x (unsqueeze (shp x) idx)).

(** adapter.py:94-98 and 132-133, compute_unl; whichl is None or an integer. *)
Definition azeta (b : abasis) : Z := match ft_zeta (ffreq (auhat b)) with Some z => z | None => 0%Z end.
Definition compute_unl (b : abasis) (n : nd Z) (whichl : option Z) : res (nd C) :=
  let nn := map (fun n => 2 * n + azeta b)%Z (ravel n) in
  match whichl with
  | None =>
      do M <- ft_call (auhat b) nn;
      Ok (squeeze (Nd [List.length nn; List.length M]
                      (fun idx => nth (nth 0 idx 0%nat) (nth (nth 1 idx 0%nat) M []) (RtoC 0))))
  | Some l =>
      do f <- ft_item (auhat b) l;
      do M <- ft_call f nn;
      Ok (squeeze (Nd [List.length nn] (fun idx => nth (nth 0 idx 0%nat) (nth 0 M []) (RtoC 0))))
  end.

(** adapter.py:172-183, _get_unl_real on an array of indices. *)
Definition array1 {A} (d : A) (l : list A) : nd A := Nd [List.length l] (fun idx => nth (nth 0 idx 0%nat) l d).
Definition get_unl_real (b : abasis) (x : list Z) (l : Z) : res (list R) :=
  do unl <- compute_unl b (array1 0%Z x) (Some l);
  let zeta := if String.eqb (astat b) "F" then 1%Z else 0%Z in
  let vals := ravel unl in
  let zero l := allclose l (map (fun _ => 0) l) in
  if ((l mod 2) =? zeta)%Z
  then (if zero (map Im vals) then Ok (map Re vals) else Raise AssertionError)
  else (if zero (map Re vals) then Ok (map Im vals) else Raise AssertionError).

(** adapter.py:210-220, _get_mats_sampling (called with a given lmax). *)
Definition get_mats_sampling (b : abasis) (lmax : Z) : res (list Z) :=
  let x := start_guesses 1000 in
  do y <- get_unl_real b x lmax;
  do x_idx <- sampling_points y;
  full_interval (map (fun i => nth i x 0%Z) x_idx) (astat b).

(** adapter.py:243-267, sampling_points_matsubara. *)
Definition sampling_points_matsubara (b : abasis) (whichl : Z) : res (list Z) :=
  if negb (existsb (String.eqb (astat b)) ["F"; "B"; "barB"]%string) then Raise AssertionError else
  if (Z.of_nat (adim b) - 1 <? whichl)%Z then Raise RuntimeError else
  get_mats_sampling b whichl.

(** adapter.py:223-227, sampling_points_x. *)
Definition sampling_points_x (b : abasis) (fuel : nat) (whichl : Z) : option (res (list R)) :=
  run p <- Some (getitem (au b) whichl);
  run xroots <- find_roots (scall p) fuel;
  Some (Ok (midpoints (-1 :: xroots ++ [1]))).

(** adapter.py:230-240, sampling_points_y. *)
Definition sampling_points_y (b : abasis) (fuel : nat) (whichl : Z) : option (res (list R)) :=
  run zs <- find_roots (fun y => vly b whichl ((y + 1) / 2)) fuel;
  let half := map (fun z => / 2 * z + / 2) zs in
  let roots_ex :=
    if ((whichl mod 2) =? 0)%Z
    then rsort (-1 :: map Ropp half ++ half ++ [1])
    else rsort (-1 :: map Ropp half ++ [0] ++ half ++ [1]) in
  Some (Ok (midpoints roots_ex)).
