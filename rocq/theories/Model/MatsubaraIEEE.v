(** Default Matsubara sampling points in rounded arithmetic: the search of Model/Roots.v
    and Model/Matsubara.v (_roots.py:9-47, 71-140, poly.py:257-283, basis.py:178-183,
    260-295) on computed values of uhat.  uhat is evaluated on whole arrays of
    frequencies, and what the matrix product behind it returns for a frequency may
    depend on the other ones; so the function that is searched takes a list of
    frequencies.  A computed value is a pair: the number, and its sign bit should it be
    a zero.  Without rounding and negative zeros these are the functions of
    Model/Defaults.v (theorem C103_exact_arithmetic). *)
From Coq Require Import List Reals ZArith Arith Bool.
From Coquelicot Require Import Complex.
From Verif.Model Require Import Base Util Num Roots Matsubara Poly FT FTIEEE SVE Basis NDArray Sampling Defaults DefaultsIEEE TransformIEEE.
Import ListNotations.
Open Scope R_scope.

(** _roots.py:80-84, the update of one bracket with the computed value at [m]. *)
Definition halve_with (c : bracket Z (R * bool)) (m : Z) (fm : R * bool) : bracket Z (R * bool) :=
  if negb (Bool.eqb (sign_of (bfa c)) (sign_of fm))
  then mkbr (ba c) m (bfa c) fm else mkbr m (bb c) fm (bfb c).

(** _roots.py:71-90, _bisect_discr. *)
Fixpoint bisect_arr (f : list Z -> list (R * bool)) (fuel : nat) (k : list (bracket Z (R * bool))) : option (list Z) :=
  match fuel with
  | O => None
  | S fuel' =>
      let mid := fun c => ((ba c + bb c) / 2)%Z in
      let found := fun c => (ba c =? mid c)%Z in
      if existsb found k then
        let roots := map mid (filter found k) in
        if forallb found k then Some roots
        else match bisect_arr f fuel' (filter (fun c => negb (found c)) k) with
             | Some more => Some (roots ++ more)
             | None => None
             end
      else bisect_arr f fuel' (map2 (fun c fm => halve_with c (mid c) fm) k (f (map mid k)))
  end.

(** _roots.py:9-47, find_all(f, xgrid, type='discrete'). *)
Definition find_all_arr (f : list Z -> list (R * bool)) (fuel : nat) (xgrid : list Z) : option (list Z) :=
  let fx := f xgrid in
  let hit := map (fun v => Reqb (fst v) 0) fx in
  let x_hit := mask hit xgrid in
  let sc0 := map2 (fun p q => negb (Bool.eqb (sign_of p) (sign_of q))) (init fx) (tl fx) in
  let nohit := map2 (fun p q => negb p && negb q) (init hit) (tl hit) in
  let sign_change := map2 andb sc0 nohit in
  if negb (existsb (fun b => b) sign_change) then Some x_hit else
  let where_a := sign_change ++ [false] in
  let where_b := false :: sign_change in
  let brs := zip_brackets (mask where_a xgrid) (mask where_b xgrid) (mask where_a fx) (mask where_b fx) in
  match bisect_arr f fuel brs with
  | None => None
  | Some x_bisect => Some (sort_by Z.leb (x_hit ++ x_bisect))
  end.

(** _roots.py:101-102, the sign bit of fx[i+1] - fx[i].  A difference of doubles is zero
    only if they are equal, and its sign bit is then set only for -0 - (+0). *)
Definition diff_sign (rd : R -> R) (p q : R * bool) : bool :=
  let d := rd (fst q - fst p) in
  if Reqb d 0 then Reqb (fst p) 0 && Reqb (fst q) 0 && negb (snd p) && snd q else Rltb d 0.

(** The value of a call with a single frequency. *)
Definition single (f : list Z -> list (R * bool)) (n : Z) : R := fst (hd (0, false) (f [n])).

(** _roots.py:93-122, discrete_extrema; the bisection (lines 125-140) calls f with
    single frequencies. *)
Definition discrete_extrema_arr (rd : R -> R) (f : list Z -> list (R * bool)) (fuel : nat) (xgrid : list Z) : option (res (list Z)) :=
  let fx := f xgrid in
  let absfx := map (fun v => Rabs (fst v)) fx in
  let sgx := map2 (diff_sign rd) (init fx) (tl fx) in
  let where_ := map2 (fun p q => negb (Bool.eqb p q)) (init sgx) (tl sgx) in
  let where_a := where_ ++ [false; false] in
  let where_b := false :: false :: where_ in
  let brs := zip_brackets (mask where_a xgrid) (mask where_b xgrid) (mask where_a absfx) (mask where_b absfx) in
  match traverse (map (fun c => bisect_extremum (single f) fuel (ba c) (bb c) (bfa c) (bfb c)) brs) with
  | None => None
  | Some inner =>
      let edge x v w := if Rltb (Rabs (fst w)) (Rabs (fst v)) || negb (Bool.eqb (sign_of v) (sign_of w)) then [x] else [] in
      match xgrid, fx, rev xgrid, rev fx with
      | x0 :: _, f0 :: f1 :: _, xl :: _, fl :: fl' :: _ => Some (Ok (edge x0 f0 f1 ++ inner ++ edge xl fl fl'))
      | _, _, _, _ => Some (Raise IndexError)
      end
  end.

(** poly.py:257-299 of a single transform: the function that is searched.  [model] n is
    the value of its high-frequency model, [nz] ns j the sign bit of the value number j
    in a call with frequencies ns should it be a zero. *)
Definition searched_rd (rd : R -> R) (F : flib) (model : Z -> C) (nz : list Z -> nat -> bool) (f : ft) : res (list Z -> list (R * bool)) :=
  match fcols f with
  | [c] =>
      do q <- search_freq (ffreq f);
      do part <- func_part (csym c) (ft_zeta (ffreq f));
      do _ <- ft_call_rd rd F (fun _ => model) f [zeta q];
      Ok (fun ns =>
            let row := match ft_call_rd rd F (fun _ => model) f (map (fun n => 2 * n + zeta q)%Z ns) with Ok (row :: _) => row | _ => [] end in
            map (fun jv => (match part with RealPart => Re (snd jv) | ImagPart => Im (snd jv) end, nz ns (fst jv)))
                (combine (seq 0 (List.length row)) row))
  | _ => Raise ValueError
  end.

(** poly.py:257-269 and 271-283 *)
Definition sign_changes_rd (fuel : nat) (q : freq) (g : list Z -> list (R * bool)) (grid : list Z) (positive_only : bool) : option (res (list Z)) :=
  match find_all_arr g fuel grid with None => None | Some x0 => Some (finish q positive_only x0) end.
Definition extrema_rd (rd : R -> R) (fuel : nat) (q : freq) (g : list Z -> list (R * bool)) (grid : list Z) (positive_only : bool) : option (res (list Z)) :=
  match discrete_extrema_arr rd g fuel grid with None => None | Some r => Some (do x0 <- r; finish q positive_only x0) end.

(** basis.py:260-295 without fence. *)
Definition uhat_default_rd (rd : R -> R) (F : flib) (model : Z -> C) (nz : list Z -> nat -> bool) (fuel : nat) (grid : list Z) (f : ft)
           (L : nat) (positive_only : bool) : option (res (list Z * bool)) :=
  after (Some (search_freq (ffreq f))) (fun q =>
  let lr := l_requested q L in
  let spare := (lr <? List.length (fcols f))%nat in
  after (Some (do p <- ft_item f (if spare then Z.of_nat lr else (-1)%Z); searched_rd rd F model nz p)) (fun g =>
  after (if spare then sign_changes_rd fuel q g grid positive_only
         else after (extrema_rd rd fuel q g grid positive_only) (fun wn =>
           Some (match wn with
                 | [] => Raise IndexError
                 | w :: _ => Ok (if (w mod 2 =? 0)%Z then zunique (0%Z :: wn) else wn)
                 end))) (fun wn =>
  let expected := if positive_only then Nat.div (lr + 1) 2 else lr in
  Some (Ok (wn, negb (List.length wn =? expected)%nat))))).

(** basis.py:178-183 *)
Definition basis_matsubara_rd (rd : R -> R) (F : flib) (model : Z -> C) (nz : list Z -> nat -> bool) (fuel : nat) (grid : list Z) (b : basis)
           (npoints : option nat) (positive_only : bool) : option (res (list Z * bool)) :=
  uhat_default_rd rd F model nz fuel grid (buhat_full b) (match npoints with None => bsize b | Some n => n end) positive_only.

(** sampling.py:169-190, MatsubaraSampling(basis, positive_only=...); [hmodel] is the
    high-frequency model of the functions of the basis. *)
Definition mats_default_rd (old : bool) (rd : R -> R) (F : flib) (hmodel : nat -> Z -> C) (model : Z -> C) (nz : list Z -> nat -> bool) (fuel : nat)
           (grid : list Z) (svd : mat -> svd_result) (b : basis) (positive_only : bool) :=
  mats_of_points svd (sb_of_basis_rd old rd F hmodel b) positive_only (basis_matsubara_rd rd F model nz fuel grid b None positive_only).
