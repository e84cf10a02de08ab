(** Model of the discrete parts of src/sparse_ir/sve.py (truncation, partial
    results, choice of working precision) and of the dispatch in svd.py.
    Singular values are exact reals. *)
From Coq Require Import String ZArith Arith Bool Reals.
From Coq Require Import List.
From Verif.Model Require Import Base Util Num Poly.
Import ListNotations.
Open Scope R_scope.

(** A Python number given as size limit: an int or a float. *)
Inductive pynum := PyInt (z : Z) | PyFloat (x : xr).

(** sve.py:364-365: [lmax < 0 or int(lmax) != lmax].  int() of NaN raises
    ValueError and int() of inf raises OverflowError. *)
Definition check_lmax (lmax : option pynum) : res unit :=
  match lmax with
  | None => Ok tt
  | Some (PyInt z) => if (z <? 0)%Z then Raise ValueError else Ok tt
  | Some (PyFloat NaN) => Raise ValueError
  | Some (PyFloat NInf) => Raise ValueError
  | Some (PyFloat PInf) => Raise OverflowError
  | Some (PyFloat (Fin x)) =>
      if Rltb x 0 || negb (Reqb (IZR (Rtrunc x)) x) then Raise ValueError else Ok tt
  end.

(** sve.py:366-367 *)
Definition check_rtol (rtol : xr) : res R :=
  match rtol with
  | Fin r => if Rleb 0 r && Rleb r 1 then Ok r else Raise ValueError
  | _ => Raise ValueError
  end.

(** sve.py:374-377: the common cutoff.  [sall] is non-empty here; a float lmax
    below the number of values is used as an index and raises IndexError. *)
Definition cutoff_of (rtol : R) (lmax : option pynum) (sall : list R) : res R :=
  let ssort := rsort sall in
  let n := Z.of_nat (List.length sall) in
  let cutoff := rtol * last ssort 0 in
  match lmax with
  | None => Ok cutoff
  | Some (PyInt z) =>
      if (z <? n)%Z then Ok (Rmax cutoff (nth (Z.to_nat (n - z - 1)) ssort 0)) else Ok cutoff
  | Some (PyFloat x) =>
      if negb (xleb (Fin (IZR n)) x) then Raise IndexError else Ok cutoff
  end.

(** sve.py:380: (si > cutoff).sum() *)
Definition count_above (cutoff : R) (s : list R) : nat :=
  List.length (filter (fun x => Rltb cutoff x) s).

(** sve.py:353-385, _truncate.  A block is (columns of u, s, columns of v). *)
Definition block (A B : Type) := (list A * list R * list B)%type.
Definition bvals {A B} (b : block A B) : list R := snd (fst b).
Definition cut_block {A B} (cutoff : R) (b : block A B) : block A B :=
  let k := count_above cutoff (bvals b) in
  (firstn k (fst (fst b)), firstn k (bvals b), firstn k (snd b)).
Definition truncate {A B} (blocks : list (block A B)) (rtol : xr) (lmax : option pynum)
  : res (list (block A B)) :=
  do _ <- check_lmax lmax;
  do r <- check_rtol rtol;
  match blocks with
  | [] => Raise ValueError          (* np.hstack of nothing *)
  | _ =>
      let sall := concat (map bvals blocks) in
      match sall with
      | [] => Raise IndexError      (* ssort[-1] *)
      | _ => do cutoff <- cutoff_of r lmax sall; Ok (map (cut_block cutoff) blocks)
      end
  end.

(** sve.py:115-125, SVEResult (the kernel it remembers is never consulted and is
    not part of the model). *)
Record sve_result := SVE { su : vpoly; ss : list R; sv : vpoly; seps : option R }.

(** sve.py:127-136, part(eps, max_size). *)
Definition part (r : sve_result) (eps : option R) (max_size : option pynum)
  : res (vpoly * list R * vpoly) :=
  let eps' := match eps with None => seps r | Some e => Some e end in
  match ss r with
  | [] => Raise IndexError
  | s0 :: _ =>
      match eps' with
      | None => Raise TypeError                 (* None * s[0] *)
      | Some e =>
          let cut := List.length (filter (fun x => Rleb (e * s0) x) (ss r)) in
          let full := Ok (su r, ss r, sv r) in
          let slice c := if (c =? Z.of_nat (List.length (ss r)))%Z then full
                         else Ok (getslice (su r) c, slice_to c (ss r), getslice (sv r) c) in
          match max_size with
          | Some (PyInt z) => slice (if (z <? Z.of_nat cut)%Z then z else Z.of_nat cut)
          | Some (PyFloat x) =>
              (* a float below cut is not a valid slice bound *)
              if xleb x (Fin (INR cut)) && negb (xeqb x (Fin (INR cut)))
              then Raise TypeError else slice (Z.of_nat cut)
          | None => slice (Z.of_nat cut)
          end
      end
  end.

(** Working data types: float64, the xprec double-double type, and any other
    numpy type, of which only the machine epsilon matters. *)
Inductive dtype := Float64 | DDouble | OtherType (eps : R).

(** svd.finfo(t).eps; [dd] is the value xprec reports for ddouble. *)
Definition finfo_eps (dd : R) (t : dtype) : R :=
  match t with Float64 => / 2 ^ 52 | DDouble => dd | OtherType e => e end.

(** svd.py:7-20, MAX_DTYPE *)
Definition max_dtype (have_xprec : bool) : dtype := if have_xprec then DDouble else Float64.

Definition xltb (x y : xr) : bool := xleb x y && negb (xeqb x y).

(** sve.py:298-337, _safe_eps.  Returns (safe_eps, work_dtype, svd_strat) and
    whether the UserWarning is issued. *)
Definition safe_eps (have_xprec : bool) (dd : R) (eps_required : option xr)
           (work : option dtype) (strat : option string) : R * dtype * string * bool :=
  let t := match work with
           | None =>
               match eps_required with
               | None => max_dtype have_xprec
               | Some e => if xltb e (Fin (/ 10 ^ 8)) then max_dtype have_xprec else Float64
               end
           | Some t => t
           end in
  let safe := match t with Float64 => / 10 ^ 8 | _ => sqrt (finfo_eps dd t) end in
  match strat with
  | Some st => (safe, t, st, false)
  | None =>
      match eps_required with
      | Some e => if xltb e (Fin safe) then (safe, t, "accurate"%string, true) else (safe, t, "fast"%string, false)
      | None => (safe, t, "fast"%string, false)
      end
  end.

(** svd.py:26-62, compute: which algorithm is used.  The boolean says whether
    the fallback warning is issued. *)
Inductive svd_alg := AlgDDouble | AlgID | AlgLapack | AlgJacobi.
Definition svd_dispatch (have_xprec have_gejsv : bool) (t : dtype) (strategy : string)
  : res (svd_alg * bool) :=
  match have_xprec, t with
  | true, DDouble => Ok (AlgDDouble, false)
  | _, _ =>
      if String.eqb strategy "fast" then Ok (AlgID, false)
      else if String.eqb strategy "default" then Ok (AlgLapack, false)
      else if String.eqb strategy "accurate" then
        (if have_gejsv then Ok (AlgJacobi, false) else Ok (AlgLapack, true))
      else Raise ValueError
  end.

(** sve.py:78-79: default relative cutoff for the singular values. *)
Definition default_cutoff (dd : R) (t : dtype) : R := 2 * finfo_eps dd t.
