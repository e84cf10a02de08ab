(** Specification vocabulary for slicing and rescaling in rounded arithmetic. *)
From Coq Require Import String ZArith Arith Bool Reals.
From Coquelicot Require Import Coquelicot.
From Coq Require Import List.
From Verif.Model Require Import Base Util Num Poly FT FTIEEE SVE Basis BasisIEEE OpsIEEE.
From Verif.Spec Require Import SPoly SBasis.
Import ListNotations.
Open Scope R_scope.

(** The number of singular values that are not below the product of e and the first
    one, as computed. *)
Definition kept (rd : R -> R) (e : R) (s : list R) : nat :=
  List.length (filter (fun x => Rleb (rd (e * nth 0 s 0)) x) s).

(** [b'] consists of the first m functions and singular values of [b], number by
    number, in imaginary time, real frequency and Matsubara frequency, whatever
    library evaluates uhat. *)
Definition first_of_rd (m : nat) (b b' : basis) : Prop :=
  bu b' = take m (bu b) /\ bs b' = firstn m (bs b) /\ bv b' = take m (bv b) /\
  forall rd F model ns, ft_call_rd rd F model (buhat b') ns = (do M <- ft_call_rd rd F model (buhat b) ns; Ok (firstn m M)).

(** Two bases have everything but the statistics and uhat in common. *)
Definition shares (f b : basis) : Prop :=
  bbeta f = bbeta b /\ bwmax f = bwmax b /\ bkernel f = bkernel b /\ bsve f = bsve b /\ bacc f = bacc b /\ bu f = bu b /\ bs f = bs b /\ bv f = bv b.

(** Histories. *)
Inductive basis_op := Sliced (i : pyidx) | Rescaled (new_beta : R).
Definition apply_op (rd : R -> R) (pw : R -> Z -> R) (compute : kern -> option R -> res sve_result) (b : basis) (o : basis_op) : res basis :=
  match o with Sliced i => basis_getitem_rd rd pw compute b i | Rescaled t => rescale_rd rd pw compute b t end.
Fixpoint apply_ops (rd : R -> R) (pw : R -> Z -> R) (compute : kern -> option R -> res sve_result) (b : basis) (os : list basis_op) : res basis :=
  match os with [] => Ok b | o :: os => do b' <- apply_op rd pw compute b o; apply_ops rd pw compute b' os end.

(** beta and wmax after a history. *)
Fixpoint last_scale (rd : R -> R) (lam beta wmax : R) (os : list basis_op) : R * R :=
  match os with
  | [] => (beta, wmax)
  | Sliced _ :: os => last_scale rd lam beta wmax os
  | Rescaled t :: os => last_scale rd lam t (rd (lam / t)) os
  end.
