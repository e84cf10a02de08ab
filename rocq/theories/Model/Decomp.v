(** Model of src/sparse_ir/svd.py, and of the constructors and accessors of the
    decomposed matrices of src/sparse_ir/sampling.py.  Numbers are exact; the
    linear algebra libraries are parameters. *)
From Coq Require Import String Ascii ZArith Arith Bool Reals.
From Coquelicot Require Import Coquelicot.
From Coq Require Import List.
From Verif.Model Require Import Base Util Num Poly SVE NDArray Sampling.
Import ListNotations.
Open Scope R_scope.

(** A two-dimensional array as a matrix. *)
Definition nd_mat (a : nd C) : mat := Mat (nth 0 (shp a) 0%nat) (nth 1 (shp a) 0%nat) (fun i j => elt a [i; j]).

(** sampling.py:226-233, DecomposedMatrix.__init__ of an array of any dimension. *)
Definition decomposed_array (svd : mat -> svd_result) (a : nd C) (given : option svd_result) : res dmat :=
  if negb (Nat.eqb (ndim a) 2) then Raise ValueError else decomposed svd (nd_mat a) given.

(** sampling.py:271-284: u, vH. *)
Definition dec_u (d : dmat) : mat := adjoint (d_uH d).
Definition dec_vH (d : dmat) : mat := adjoint (d_v d).

(** sampling.py:245-247: D @ x. *)
Definition dec_at (d : dmat) (x : nd C) : res (nd C) := mm (d_a d) x.

(** sampling.py:308-317, SplitDecomposedMatrix.__init__ with its checks; the
    booleans tell whether u and vT have complex dtype. *)
Definition split_array (a : nd C) (u_complex v_complex : bool) (r : svd_result) : res sdmat :=
  if negb (Nat.eqb (ndim a) 2) then Raise ValueError else
  do _ <- check_svd_result [mr (r_u r); mc (r_u r)] [List.length (r_s r)] [mr (r_vh r); mc (r_vh r)]
                           (Some (mr (nd_mat a), mc (nd_mat a)));
  if v_complex then Raise ValueError else
  if negb u_complex then Raise ValueError else
  split_decomposed (nd_mat a) r.

(** sampling.py:360-373: u, vH. *)
Definition sdec_u (d : sdmat) : mat :=
  Mat (mc (sd_urT d)) (mr (sd_urT d)) (fun i k => Cplus (me (sd_urT d) k i) (Cmult Ci (me (sd_uiT d) k i))).
Definition sdec_vH (d : sdmat) : mat := adjoint (sd_v d).

(** sampling.py:330-335: D @ x; the boolean is the warning for data of complex dtype. *)
Definition sdec_at (d : sdmat) (x_complex : bool) (x : nd C) : res (nd C * bool) :=
  do r <- mm (sd_a d) x; Ok (r, x_complex).

(** m.T *)
Definition transposed (m : mat) : mat := Mat (mc m) (mr m) (fun i j => me m j i).

(** The triple (u, s, v) with the right singular vectors in the columns of v. *)
Record svd_triple := Triple { t_u : mat; t_s : list R; t_v : mat }.

(** What the LAPACK wrapper returns: the triple, istat[2] and info. *)
Record gejsv_result := Gejsv { g_triple : svd_triple; g_istat2 : Z; g_info : Z }.

(** svd.py:7-24: the libraries; [None] where the import fails. *)
Record libs := Libs {
  numpy_svd : mat -> svd_result;
  interp_svd : mat -> Z -> svd_triple;
  lapack_gejsv : option (mat -> nat -> gejsv_result);
  xprec_svd : option (mat -> svd_result)
}.

Inductive svd_warning := NoJacobi | Denormalized | NotConverged.

(** svd.py:85: dict(zip("CEFGAR", range(6)))[mode]. *)
Definition gejsv_job (mode : string) : res nat :=
  match find (fun p => String.eqb (fst p) mode)
             [("C", 0); ("E", 1); ("F", 2); ("G", 3); ("A", 4); ("R", 5)]%string%nat with
  | Some (_, j) => Ok j
  | None => Raise KeyError
  end.

(** svd.py:84-94: the tall case of _dgejsv.  The mode is an upper-case letter. *)
Definition gejsv_tall (gejsv : mat -> nat -> gejsv_result) (a : mat) (mode : string)
  : res (svd_triple * list svd_warning) :=
  do job <- gejsv_job mode;
  let g := gejsv a job in
  if (g_info g <? 0)%Z then Raise ValueError else
  Ok (g_triple g, (if (g_istat2 g =? 0)%Z then [] else [Denormalized]) ++
                  (if (0 <? g_info g)%Z then [NotConverged] else [])).

(** svd.py:76-94, _dgejsv.  The recursive call of line 81 is on a tall matrix. *)
Definition gejsv_svd (gejsv : mat -> nat -> gejsv_result) (a : mat) (mode : string)
  : res (svd_triple * list svd_warning) :=
  if (mr a <? mc a)%nat then
    do ' (t, w) <- gejsv_tall gejsv (transposed a) mode;
    Ok (Triple (t_v t) (t_s t) (t_u t), w)
  else gejsv_tall gejsv a mode.

(** svd.py:97-102, _ddouble_svd_trunc. *)
Definition ddouble_svd (xprec : option (mat -> svd_result)) (a : mat) : res svd_triple :=
  match xprec with
  | None => Raise RuntimeError
  | Some svd => let r := svd a in Ok (Triple (r_u r) (r_s r) (transposed (r_vh r)))
  end.

(** svd.py:50-53: the full decomposition. *)
Definition default_svd (svd : mat -> svd_result) (a : mat) : svd_triple :=
  let r := svd a in Triple (r_u r) (r_s r) (adjoint (r_vh r)).

(** svd.py:27-73, compute and _idsvd.  The call of line 60 is in the branch of
    line 50. *)
Definition svd_compute (L : libs) (t : dtype) (a : mat) (hint : option Z) (strategy : string)
  : res (svd_triple * list svd_warning) :=
  let m := Z.of_nat (mr a) in
  let n := Z.of_nat (mc a) in
  let k := match hint with None => Z.min m n | Some h => Z.min (Z.min m n) h end in
  match xprec_svd L, t with
  | Some _, DDouble => do r <- ddouble_svd (xprec_svd L) a; Ok (r, [])
  | _, _ =>
      if String.eqb strategy "fast" then Ok (interp_svd L a k, [])
      else if String.eqb strategy "default" then Ok (default_svd (numpy_svd L) a, [])
      else if String.eqb strategy "accurate" then
        match lapack_gejsv L with
        | None => Ok (default_svd (numpy_svd L) a, [NoJacobi])
        | Some g => gejsv_svd g a "F"
        end
      else Raise ValueError
  end.
