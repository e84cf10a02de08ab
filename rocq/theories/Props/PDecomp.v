(** C80, C81: matrices in decomposed form, and the SVD of a matrix.  [svd] is an
    arbitrary function in place of numpy.linalg.svd, the four libraries behind
    svd.compute are arbitrary too; where their results matter, that is a
    hypothesis about the one matrix in question. *)
From Coq Require Import String ZArith Arith Bool Reals Lia Lra.
From Coquelicot Require Import Coquelicot.
From Coq Require Import List.
From Verif.Model Require Import Base Util Num FT SVE NDArray Sampling Decomp.
From Verif.Spec Require Import SSampling SDecomp.
From Verif.Proofs Require Import DecompFacts DecompSplit DecompExamples.
Import ListNotations.
Open Scope R_scope.
Notation length := List.length.

(** C80: DecomposedMatrix(a, svd_result) is created for every two-dimensional
    array and every triple of matching shapes, and refused otherwise. *)
Theorem C80_created :
  forall svd a given,
  let ok := ndim a = 2%nat /\ forall r, given = Some r -> fits (nd_mat a) (r_u r) (r_s r) (r_vh r) in
  (ok -> exists d, decomposed_array svd a given = Ok d) /\
  (ndim a <> 2%nat \/ (exists r, given = Some r /\ ~ fits (nd_mat a) (r_u r) (r_s r) (r_vh r)) ->
   decomposed_array svd a given = Raise ValueError).
Proof. intros svd a given. split; [intros [H1 H2]; exact (dec_exists svd a given H1 H2)|exact (dec_raises svd a given)]. Qed.
Print Assumptions C80_created.

(** C80: made from a thin SVD, its u, s and vH are one, A == (u * s) @ vH, with
    positive singular values. *)
Theorem C80_svd :
  forall svd a given d, decomposed_array svd a given = Ok d ->
  is_svd (nd_mat a) (match given with None => svd (nd_mat a) | Some r => r end) ->
  d_a d = nd_mat a /\ is_svd (nd_mat a) (SVDRes (dec_u d) (d_s d) (dec_vH d)) /\ Forall (fun x => 0 < x) (d_s d).
Proof.
  intros svd a given d H Hs. split; [|exact (dec_svd svd a given d H Hs)].
  pose proof (dec_inv svd a given d H) as (_ & -> & _). reflexivity.
Qed.
Print Assumptions C80_svd.

(** C80: for any other triple the product (u * s) @ vH is kept, and exactly the
    vanishing entries of s are dropped. *)
Theorem C80_product :
  forall svd a r d, decomposed_array svd a (Some r) = Ok d ->
  d_a d = nd_mat a /\ fits (nd_mat a) (dec_u d) (d_s d) (dec_vH d) /\
  (forall i l, product (dec_u d) (d_s d) (dec_vH d) i l = product (r_u r) (r_s r) (r_vh r) i l) /\
  (forall x, In x (d_s d) <-> In x (r_s r) /\ x <> 0).
Proof.
  intros svd a r d H. apply (dec_product svd a (Some r) d H).
  pose proof (dec_inv svd a (Some r) d H) as (_ & _ & F). now apply F.
Qed.
Print Assumptions C80_product.

(** C80: lstsq is the least-squares solution of least norm, along any axis. *)
Theorem C80_lstsq :
  forall svd a given d, decomposed_array svd a given = Ok d ->
  is_svd (nd_mat a) (match given with None => svd (nd_mat a) | Some r => r end) ->
  exists f, (forall x, least_squares (nd_mat a) x (f x)) /\
    works_along_axis (fun x k => d_fit d x (Some k)) (mr (nd_mat a)) (mc (nd_mat a)) f /\
    default_axis (fun x k => d_fit d x k).
Proof. exact dec_fit. Qed.
Print Assumptions C80_lstsq.

(** C80: matmul is the product with a, along any axis, and D @ x is matmul
    without axis. *)
Theorem C80_matmul :
  forall svd a given d, decomposed_array svd a given = Ok d ->
  works_along_axis (fun x k => d_matmul d x (Some k)) (mc (nd_mat a)) (mr (nd_mat a)) (apply_mat (nd_mat a)) /\
  default_axis (fun x k => d_matmul d x k) /\ forall x, dec_at d x = d_matmul d x None.
Proof. exact dec_mul. Qed.
Print Assumptions C80_matmul.

(** C80: cond raises IndexError exactly for the zero matrix. *)
Theorem C80_cond_of_zero :
  forall svd a d, decomposed_array svd a None = Ok d -> is_svd (nd_mat a) (svd (nd_mat a)) ->
  (cond_of (d_s d) = Raise IndexError <->
   forall i l, (i < mr (nd_mat a))%nat -> (l < mc (nd_mat a))%nat -> me (nd_mat a) i l = RtoC 0).
Proof. exact dec_cond_zero. Qed.
Print Assumptions C80_cond_of_zero.

(** C80: SplitDecomposedMatrix(a, (u, s, vT)) is created exactly for a
    two-dimensional array, matching shapes, complex u and real vT. *)
Theorem C80_split_created :
  forall a uc vc r,
  (ndim a = 2%nat -> uc = true -> vc = false -> fits (nd_mat a) (r_u r) (r_s r) (r_vh r) ->
   exists d, split_array a uc vc r = Ok d) /\
  (ndim a <> 2%nat \/ uc = false \/ vc = true \/ ~ fits (nd_mat a) (r_u r) (r_s r) (r_vh r) ->
   split_array a uc vc r = Raise ValueError).
Proof. intros a uc vc r. split; [intros H -> ->; exact (split_exists a r H)|exact (split_raises a uc vc r)]. Qed.
Print Assumptions C80_split_created.

(** C80: it keeps the product u * s @ vT and drops exactly the vanishing entries
    of s. *)
Theorem C80_split_product :
  forall a uc vc r d, split_array a uc vc r = Ok d ->
  (forall k l, (k < length (r_s r))%nat -> (l < mc (nd_mat a))%nat -> Im (me (r_vh r) k l) = 0) ->
  sd_a d = nd_mat a /\ fits (nd_mat a) (sdec_u d) (sd_s d) (sdec_vH d) /\
  (forall i l, (l < mc (nd_mat a))%nat -> product (sdec_u d) (sd_s d) (sdec_vH d) i l = product (r_u r) (r_s r) (r_vh r) i l) /\
  (forall x, In x (sd_s d) <-> In x (r_s r) /\ x <> 0) /\
  (forall k l, (k < length (sd_s d))%nat -> (l < mc (nd_mat a))%nat -> Im (me (sdec_vH d) k l) = 0).
Proof. exact split_product. Qed.
Print Assumptions C80_split_product.

(** C80: in the split form computed from the stacked real and imaginary parts
    the product is A, except for the imaginary part of the row of frequency zero,
    which is taken to be zero. *)
Theorem C80_split_form :
  forall svd a (hz : bool),
  let A := nd_mat a in
  let off := if hz then 1%nat else 0%nat in
  ndim a = 2%nat -> is_real_svd (stacked A off) (svd (stacked A off)) ->
  exists d, split_array a true false (split_complex svd A hz) = Ok d /\ sd_a d = A /\
    fits A (sdec_u d) (sd_s d) (sdec_vH d) /\ Forall (fun x => 0 < x) (sd_s d) /\
    (forall k l, (k < length (sd_s d))%nat -> (l < mc A)%nat -> Im (me (sdec_vH d) k l) = 0) /\
    forall i l, (i < mr A)%nat -> (l < mc A)%nat ->
      product (sdec_u d) (sd_s d) (sdec_vH d) i l = if hz && Nat.eqb i 0 then RtoC (Re (me A i l)) else me A i l.
Proof. exact split_own. Qed.
Print Assumptions C80_split_form.

(** C80: lstsq of the split form is the real least-squares solution. *)
Theorem C80_split_lstsq :
  forall svd a (hz : bool) d,
  let A := nd_mat a in
  let off := if hz then 1%nat else 0%nat in
  (off <= mr A)%nat -> is_real_svd (stacked A off) (svd (stacked A off)) ->
  (hz = true -> forall l, (l < mc A)%nat -> Im (me A 0 l) = 0) ->
  split_array a true false (split_complex svd A hz) = Ok d ->
  exists f, (forall x, real_least_squares A x (f x)) /\
    works_along_axis (fun x k => sd_fit d x (Some k)) (mr A) (mc A) f /\ default_axis (fun x k => sd_fit d x k).
Proof. exact split_own_fit. Qed.
Print Assumptions C80_split_lstsq.

(** C80: matmul of the split form; D @ x warns exactly for data of complex dtype. *)
Theorem C80_split_matmul :
  forall a uc vc r d, split_array a uc vc r = Ok d ->
  works_along_axis (fun x k => sd_matmul d x (Some k)) (mc (nd_mat a)) (mr (nd_mat a)) (apply_mat (nd_mat a)) /\
  default_axis (fun x k => sd_matmul d x k) /\
  forall xc x, sdec_at d xc x = do y <- sd_matmul d x None; Ok (y, xc).
Proof. exact split_mul. Qed.
Print Assumptions C80_split_matmul.

(** Met by diag(2, 0), whose second singular value is dropped, and by the column
    (1, i) with the first row at frequency zero. *)
Example C80_hypotheses_met :
  is_svd (nd_mat ex_arr) (ex_svd (nd_mat ex_arr)) /\
  (exists d, decomposed_array ex_svd ex_arr None = Ok d /\ d_a d = nd_mat ex_arr) /\
  is_real_svd (stacked (nd_mat ex_split_arr) 1) (ex_split_svd (stacked (nd_mat ex_split_arr) 1)) /\
  Im (me (nd_mat ex_split_arr) 0 0) = 0.
Proof.
  split; [exact ex_is_svd|]. split; [|split; [exact ex_split_is_svd|reflexivity]].
  eexists. split; [unfold decomposed_array; cbn; reflexivity|reflexivity].
Qed.

(** C81: svd.compute of a real matrix of any shape, with any of the documented
    strategies: A == (U * s) @ V.T with orthonormal columns, as accurate as the
    library called, if that library keeps its own contract. *)
Theorem C81_documented :
  forall L t A hint st err, In st ["fast"; "default"; "accurate"]%string ->
  (forall f, xprec_svd L = Some f -> decomposes_h A (f A) err) ->
  decomposes_h A (numpy_svd L A) err ->
  decomposes A (interp_svd L A (wanted_rank A hint)) err ->
  (forall g, lapack_gejsv L = Some g ->
     (0 <= g_info (g (tall A) 2%nat))%Z /\ decomposes (tall A) (g_triple (g (tall A) 2%nat)) err) ->
  exists r w, svd_compute L t A hint st = Ok (r, w) /\ decomposes A r err.
Proof. exact svd_ok. Qed.
Print Assumptions C81_documented.

(** C81: the result depends on one library only, the one chosen by strategy and
    work type (C44_dispatch), and on its result for this matrix only. *)
Theorem C81_library :
  forall L L' t A hint st alg w,
  available (xprec_svd L) = available (xprec_svd L') -> available (lapack_gejsv L) = available (lapack_gejsv L') ->
  svd_dispatch (available (xprec_svd L)) (available (lapack_gejsv L)) t st = Ok (alg, w) ->
  same_on alg A (wanted_rank A hint) L L' ->
  svd_compute L t A hint st = svd_compute L' t A hint st.
Proof. exact svd_backend. Qed.
Print Assumptions C81_library.

(** C81: for a complex matrix the full SVD gives A == (U * s) @ V.conj().T ... *)
Theorem C81_complex :
  forall L t A hint st w r, t <> DDouble -> is_svd A (numpy_svd L A) ->
  st = "default"%string \/ (st = "accurate"%string /\ lapack_gejsv L = None) ->
  svd_compute L t A hint st = Ok (r, w) ->
  is_svd A (SVDRes (t_u r) (t_s r) (adjoint (t_v r))).
Proof. exact svd_hermitian. Qed.
Print Assumptions C81_complex.

(** C81: ... and not the documented A == (U * s) @ V.T: for the row (1, i) that
    fails, whichever decomposition the library returns. *)
Theorem C81_documented_for_complex_refuted :
  forall L hint r w, is_svd row_1i (numpy_svd L row_1i) ->
  svd_compute L Float64 row_1i hint "default" = Ok (r, w) ->
  ~ (forall i l, (i < 1)%nat -> (l < 2)%nat -> me row_1i i l = product_T r i l).
Proof. exact row_1i_wrong. Qed.
Print Assumptions C81_documented_for_complex_refuted.

(** C81: the only exception is ValueError, for an unknown strategy or if the
    Jacobi method reports a wrong argument; never in double-double precision. *)
Theorem C81_errors :
  forall L t A hint st e, svd_compute L t A hint st = Raise e <->
  e = ValueError /\ (xprec_svd L = None \/ t <> DDouble) /\
  (~ In st ["fast"; "default"; "accurate"]%string \/
   st = "accurate"%string /\ exists g, lapack_gejsv L = Some g /\ (g_info (g (tall A) 2%nat) < 0)%Z).
Proof. exact svd_raises. Qed.
Print Assumptions C81_errors.

(** C81: the warnings. *)
Theorem C81_warnings :
  forall L t A hint st r w, svd_compute L t A hint st = Ok (r, w) ->
  let jacobi g := (xprec_svd L = None \/ t <> DDouble) /\ st = "accurate"%string /\ lapack_gejsv L = g in
  (In NoJacobi w <-> jacobi None) /\
  (In Denormalized w <-> exists g, jacobi (Some g) /\ g_istat2 (g (tall A) 2%nat) <> 0%Z) /\
  (In NotConverged w <-> exists g, jacobi (Some g) /\ (0 < g_info (g (tall A) 2%nat))%Z).
Proof. exact svd_warns. Qed.
Print Assumptions C81_warnings.

(** Met by the wide matrix (3, 4) in all libraries, and by the row (1, i). *)
Example C81_hypotheses_met :
  (forall f, xprec_svd ex_libs = Some f -> decomposes_h row_34 (f row_34) 0) /\
  decomposes_h row_34 (numpy_svd ex_libs row_34) 0 /\
  decomposes row_34 (interp_svd ex_libs row_34 (wanted_rank row_34 None)) 0 /\
  (forall g, lapack_gejsv ex_libs = Some g ->
     (0 <= g_info (g (tall row_34) 2%nat))%Z /\ decomposes (tall row_34) (g_triple (g (tall row_34) 2%nat)) 0) /\
  is_svd row_1i row_1i_svd.
Proof.
  split; [intros f [= <-]; exact ex_h_ok|]. split; [exact ex_h_ok|]. split; [exact ex_wide_ok|].
  split; [intros g [= <-]; split; [apply Z.le_refl|exact ex_tall_ok]|exact row_1i_is_svd].
Qed.
