(** C64-C66: the discrete Lehmann representation.  [f] stands for the elementary
    functions behind the kernel, exact up to [tfun_ok]; [svd] for numpy.linalg.svd. *)
From Coq Require Import String ZArith Arith Bool Reals Lia Lra.
From Coquelicot Require Import Coquelicot.
From Coq Require Import List.
From Verif.Model Require Import Base Util Num Poly FT SVE Basis Kernel NDArray Sampling DLR.
From Verif.Spec Require Import SUtil SGauss SPoly SFT SBasis SKernel SSampling SDLR.
From Verif.Proofs Require Import KernelProps DLRFacts DLRProps DLRClaims SVEPolicy SamplingExamples.
Import ListNotations.
Open Scope R_scope.
Notation length := List.length.

(** C64: the time functions of poles that are not all zero, at a list of times in
    [0, beta]: entry (p, j) is the function of the p-th pole at the j-th time. *)
Theorem C64_time_functions :
  forall f st beta poles u ts, 0 < beta -> tfun_ok f -> taupoles_init st beta poles = Ok u -> (exists w, In w poles /\ w <> 0) ->
  Forall (fun t => 0 <= t <= beta) ts ->
  exists M, taupoles_call f u (map Fin ts) = Ok M /\ length M = length poles /\
  forall p w j t, nth_error poles p = Some w -> nth_error ts j = Some t -> entry_of M p j = Some (pole_fun beta w t).
Proof. exact time_functions. Qed.
Print Assumptions C64_time_functions.

(** C64: times outside [0, beta] raise RuntimeError, whatever the poles. *)
Theorem C64_outside :
  forall f st beta poles u tau t, taupoles_init st beta poles = Ok u -> In t tau ->
  t = PInf \/ t = NInf \/ (exists r, t = Fin r /\ (r < 0 \/ beta < r)) ->
  taupoles_call f u tau = Raise RuntimeError.
Proof. exact time_outside. Qed.
Print Assumptions C64_outside.

(** C64: NaN among the times, or poles that are all zero, raise ValueError. *)
Theorem C64_nan_or_zero_poles :
  forall f st beta poles u tau, 0 < beta -> tfun_ok f -> taupoles_init st beta poles = Ok u ->
  Forall (fun t => t = NaN \/ pole_dom beta t) tau ->
  In NaN tau \/ Forall (fun w => w = 0) poles ->
  taupoles_call f u tau = Raise ValueError.
Proof. exact time_nan_or_zero. Qed.
Print Assumptions C64_nan_or_zero_poles.

(** C64: only the empty list of poles is refused by the constructor. *)
Theorem C64_constructor :
  forall st beta poles, (poles = [] -> taupoles_init st beta poles = Raise ValueError) /\
                        (poles <> [] -> is_ok (taupoles_init st beta poles)).
Proof. exact taupoles_accepts. Qed.
Print Assumptions C64_constructor.

Example C64_hypotheses_met :
  exists f u, tfun_ok f /\ taupoles_init "F" 2 [-1; 0; 3] = Ok u /\ tp_wmax u = 3.
Proof. exact taupoles_example. Qed.

(** C65: the frequency function of a pole is the Fourier integral of its time
    function: 1/(iv - w) at odd n for fermions, tanh(beta w/2)/(iv - w) at even n
    for bosons; a pole at zero must not meet the zero frequency. *)
Theorem C65_fourier_integral :
  forall u beta (fermi : bool) p w n j v M ns, 0 < beta ->
  mp_beta u = beta -> mp_stat u = (if fermi then "F" else "B")%string ->
  matspoles_call u (map IZR ns) = Ok M ->
  nth_error (mp_poles u) p = Some w -> nth_error ns j = Some n -> entry_of M p j = Some v ->
  Z.even n = negb fermi -> w <> 0 \/ n <> 0%Z ->
  v = Some (pole_hat fermi beta w n) /\
  is_fourier (fun t => PI * IZR n * t / beta) (pole_fun beta w) 0 beta (pole_hat fermi beta w n).
Proof. exact frequency_functions. Qed.
Print Assumptions C65_fourier_integral.

(** C65: the excluded case, a pole at zero and the zero frequency, gives 0/0. *)
Theorem C65_zero_over_zero :
  forall u p j M ns, matspoles_call u (map IZR ns) = Ok M ->
  nth_error (mp_poles u) p = Some 0 -> nth_error ns j = Some 0%Z -> entry_of M p j = Some None.
Proof. exact frequency_nan. Qed.
Print Assumptions C65_zero_over_zero.

(** C65: every array is accepted, also with frequencies of the wrong parity. *)
Theorem C65_no_parity_check :
  forall u ns, exists M, matspoles_call u ns = Ok M /\ length M = length (mp_poles u) /\ Forall (fun row => length row = length ns) M.
Proof. exact frequency_accepts. Qed.
Print Assumptions C65_no_parity_check.

Example C65_hypotheses_met :
  exists M v, matspoles_call (MatsPoles "B" 2 [0; 3]) (map IZR [-2; 0]%Z) = Ok M /\ entry_of M 1 1 = Some (Some v).
Proof. exact matspoles_example. Qed.

(** C66: when the constructor succeeds. *)
Theorem C66_constructor :
  forall compute svd b lg poles, built compute b -> (forall A, svd_shapes A (svd A)) ->
  (is_ok (dlr_init svd b lg poles) <-> lg = true /\ poles <> [] /\ Forall (inside_w b) poles) /\
  (forall e, dlr_init svd b lg poles = Raise e -> e = ValueError).
Proof. exact dlr_accepts. Qed.
Print Assumptions C66_constructor.

(** C66: to_IR along any axis; at a time where the kernel of the basis is
    truncated with an error of at most E at the poles, the expansion in the basis
    is within E times the sum of |g_p| of the expansion in the poles. *)
Theorem C66_to_IR :
  forall compute svd b poles d, built compute b -> dlr_init svd b true poles = Ok d ->
  exists f, works_along_axis (to_IR d) (length poles) (bsize b) f /\
  forall U W, (forall l, (l < bsize b)%nat -> represents (bu b) l (U l) /\ represents (bv b) l (W l)) ->
  forall E t,
  (forall w, In w poles ->
     Rabs (exp (- t * w) / (1 + exp (- bbeta b * w)) - sumn (bsize b) (fun l => nth l (bs b) 0 * U l t * W l w)) <= E) ->
  forall g, Cmod (Cminus (csumn (bsize b) (fun l => Cmult (RtoC (U l t)) (f g l)))
                         (csumn (length poles) (fun p => Cmult (RtoC (pole_fun (bbeta b) (nth p poles 0) t)) (g p)))) <=
            E * sumn (length poles) (fun p => Cmod (g p)).
Proof. exact to_ir_bound. Qed.
Print Assumptions C66_to_IR.
Theorem C66_to_IR_exact :
  forall compute svd b poles d, built compute b -> dlr_init svd b true poles = Ok d ->
  exists f, works_along_axis (to_IR d) (length poles) (bsize b) f /\
  forall U W, (forall l, (l < bsize b)%nat -> represents (bu b) l (U l) /\ represents (bv b) l (W l)) ->
  forall t,
  (forall w, In w poles -> exp (- t * w) / (1 + exp (- bbeta b * w)) = sumn (bsize b) (fun l => nth l (bs b) 0 * U l t * W l w)) ->
  forall g, csumn (bsize b) (fun l => Cmult (RtoC (U l t)) (f g l)) =
            csumn (length poles) (fun p => Cmult (RtoC (pole_fun (bbeta b) (nth p poles 0) t)) (g p)).
Proof. exact to_ir_exact. Qed.
Print Assumptions C66_to_IR_exact.

(** C66: from_IR is least squares, and undoes to_IR if the transfer matrix has
    full column rank. *)
Theorem C66_from_IR :
  forall compute svd b poles d, built compute b -> dlr_init svd b true poles = Ok d ->
  let F := d_a (dl_matrix d) in is_svd F (svd F) ->
  (exists f, (forall x, least_squares F x (f x)) /\ works_along_axis (from_IR d) (bsize b) (length poles) f) /\
  (full_rank F -> forall g k gl, to_IR d g k = Ok gl -> exists g', from_IR d gl k = Ok g' /\ same_outcome (Ok g') (Ok g)).
Proof. exact from_ir_recovers. Qed.
Print Assumptions C66_from_IR.

(** Met by a DLR of one pole over a basis of size two; in general, hypotheses on
    all matrices are met by decompositions of the right shape. *)
Example C66_hypotheses_met :
  (exists d, built no_compute (dl_basis d) /\ dlr_init col_svd (dl_basis d) true (dl_poles d) = Ok d /\ length (dl_poles d) = 1%nat /\
     let F := d_a (dl_matrix d) in is_svd F (col_svd F) /\ full_rank F) /\
  (exists svd, forall A, svd_shapes A (svd A)).
Proof.
  split.
  - destruct dlr_example as (d & Hb & _ & Hp & Hd & H1 & H2 & _). exists d. rewrite Hp. split; [exact Hb|]. split; [rewrite <- Hp; exact Hd|]. auto.
  - exists (fun A => SVDRes (Mat (mr A) 0 (fun _ _ => RtoC 0)) [] (Mat 0 (mc A) (fun _ _ => RtoC 0))). intros A. repeat split.
Qed.
