(** C94: the attributes of the objects made from a basis by any sequence of slicing,
    rescaling, augmenting and switching to poles.  [compute] is an arbitrary
    computation of the singular value expansion, [svd] numpy.linalg.svd. *)
From Coq Require Import String ZArith Arith Bool Reals Lia Lra.
From Coquelicot Require Import Coquelicot.
From Coq Require Import List.
From Verif.Model Require Import Base Util Num Poly FT SVE Basis Kernel NDArray Sampling Augment DLR Access.
From Verif.Spec Require Import SBasis SAccess.
From Verif.Proofs Require Import SVEPolicy AccessFacts.
Import ListNotations.
Open Scope R_scope.
Notation length := List.length.

(** C94: beta is that of the last rescaling (or the first basis), lambda_ is beta
    times wmax and agrees with the parameter of the kernel to within 4e-16, exactly
    after a rescaling. *)
Theorem C94_settings :
  forall compute svd logistic b ps o, made compute svd logistic b ps o -> exists lam, klam (bkernel b) = Some lam /\
  0 < o_beta o /\ 0 < o_wmax o /\ o_lambda o = o_beta o * o_wmax o /\
  o_beta o = last (betas ps) (bbeta b) /\ (betas ps = [] -> o_wmax o = bwmax b) /\ (betas ps <> [] -> o_lambda o = lam) /\
  Rabs (lam - o_lambda o) <= 4 / 10 ^ 16 * o_lambda o.
Proof. exact settings. Qed.
Print Assumptions C94_settings.

(** C94: statistics is that of the first basis, except that augmented bases raise. *)
Theorem C94_statistics :
  forall compute svd logistic b ps o, made compute svd logistic b ps o ->
  (bstat b = "F"%string \/ bstat b = "B"%string) /\
  o_statistics o = match o with OAug _ => Raise TypeError | _ => Ok (bstat b) end.
Proof. exact statistics_kept. Qed.
Print Assumptions C94_statistics.

(** C94: shape is (size,), size is positive, and both u and uhat return one row for
    each function. *)
Theorem C94_sizes :
  forall compute svd logistic b ps o, made compute svd logistic b ps o ->
  o_shape o = [o_size o] /\ (0 < o_size o)%nat /\
  (forall f tau M, o_u f o tau = Ok M -> length M = o_size o) /\
  (forall f np_complex ns M, o_uhat f np_complex o ns = Ok M -> length M = o_size o).
Proof. exact sizes. Qed.
Print Assumptions C94_sizes.

(** C94: significance has one number in (0, 1] for each function, except that for
    augmented bases it has none for the augmentations; accuracy is in (0, 1]. *)
Theorem C94_significance_and_accuracy :
  forall compute svd logistic b ps o, made compute svd logistic b ps o ->
  match o with
  | OFinite _ | ODlr _ => one_each o (o_significance o)
  | OAug a => length (o_significance o) = (o_size o - length (aaugs a))%nat /\ Forall (fun x => 0 < x <= 1) (o_significance o) /\
              (one_each o (o_significance o) <-> aaugs a = [])
  end /\ 0 < o_accuracy o <= 1 /\
  o_accuracy o = bacc (inner o).
Proof. exact significances. Qed.
Print Assumptions C94_significance_and_accuracy.

(** C94: the documented "one for each basis function" fails for augmented bases. *)
Theorem C94_significance_of_augmented_refuted :
  exists svd b ps a, made no_compute svd true b ps (OAug a) /\ ~ one_each (OAug a) (o_significance (OAug a)).
Proof.
  destruct access_example as (b & ps & a & H & _ & _ & _ & L & _). eexists _, b, ps, a. split; [exact H|].
  destruct (significances _ _ _ _ _ _ H) as ((_ & _ & E) & _). intros X. apply E in X. rewrite X in L. discriminate.
Qed.
Print Assumptions C94_significance_of_augmented_refuted.

(** C94: which objects count as well conditioned. *)
Theorem C94_conditioning :
  forall compute svd logistic b ps o, made compute svd logistic b ps o ->
  (o_well o = true <-> match o with OFinite _ => True | OAug a => exists t, aaugs a = [MatsubaraConst t] | ODlr _ => False end).
Proof. exact conditioning. Qed.
Print Assumptions C94_conditioning.

(** C94: the kernel and the expansion are those of the first basis. *)
Theorem C94_same_expansion :
  forall compute svd logistic b ps o, made compute svd logistic b ps o ->
  match o with
  | OFinite _ => o_kernel o = Ok (bkernel b) /\ o_sve o = Ok (bsve b)
  | _ => o_kernel o = Raise AttributeError /\ o_sve o = Raise AttributeError
  end.
Proof. exact same_expansion. Qed.
Print Assumptions C94_same_expansion.

Example C94_hypotheses_met :
  exists svd b ps a, made no_compute svd true b ps (OAug a) /\
  ps = [Rescale 3; Augment [ACls CMatsubaraConst; ACls CTauConst]] /\ bbeta b = 2 /\ o_beta (OAug a) = 3 /\
  length (aaugs a) = 2%nat /\ (2 < o_size (OAug a))%nat.
Proof. destruct access_example as (b & ps & a & H). eexists _, b, ps, a. exact H. Qed.
