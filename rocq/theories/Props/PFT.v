(** C27-C30: Fourier transform of piecewise Legendre polynomials. *)
From Coq Require Import Reals ZArith Arith Bool Lra Lia.
From Coquelicot Require Import Coquelicot.
From Coq Require Import List.
From Verif.Model Require Import Base Util Num Poly FT.
From Verif.Spec Require Import SPoly SFT.
From Verif.Proofs Require Import PPolyExamples FTFacts FTModel FTCall FTProps.
Import ListNotations.
Open Scope R_scope.

(** C27: below the asymptotic threshold, sqrt(2) times the value at n is the
    integral of exp(i pi n (x+1)/2) p(x) over [-1, 1]. *)
Theorem C27_uhat_is_fourier_integral :
  forall p q a mo f ns M l c j n, fresh p -> ft_init p q a mo = Ok f -> ft_call f ns = Ok M ->
  nth_error (vcols p) l = Some c -> nth_error ns j = Some n ->
  (forall x, a = AsympAt x -> Rabs (IZR n) < x) ->
  exists v, entry M l j = Some v /\
    is_fourier (fun x => PI * IZR n * (x + 1) / 2) (cval (vgeom p) c) (-1) 1 (Cmult (RtoC (sqrt 2)) v).
Proof. exact ft_fourier. Qed.
Print Assumptions C27_uhat_is_fourier_integral.

(** C27: the call returns one row per polynomial and one column per frequency
    exactly when all frequencies have the declared parity. *)
Theorem C27_call_succeeds :
  forall p q a mo f ns, fresh p -> ft_init p q a mo = Ok f ->
  (Forall (freq_ok q) ns ->
   exists M, ft_call f ns = Ok M /\ length M = length (vcols p) /\ Forall (fun row => length row = length ns) M) /\
  (~ Forall (freq_ok q) ns -> ft_call f ns = Raise ValueError).
Proof. exact ft_call_iff. Qed.
Print Assumptions C27_call_succeeds.

(** C27: the building block, the Fourier integral of a Legendre polynomial. *)
Theorem C27_legendre_integral :
  forall l w, is_fourier (fun x => w * x) (legP l) (-1) 1 (get_tnl l w).
Proof. exact tnl_fourier. Qed.
Print Assumptions C27_legendre_integral.

Example C27_hypotheses_met :
  fresh ft_poly /\ exists f M, ft_init ft_poly FEven (AsympAt 4) None = Ok f /\
    ft_call f [2; 6; 0]%Z = Ok M /\ Rabs (IZR 2) < 4.
Proof.
  split; [exact ft_poly_fresh|]. destruct (ft_poly_init FEven (AsympAt 4)) as [f Hf]; [discriminate|].
  destruct (ft_call_iff _ _ _ _ _ [2; 6; 0]%Z ft_poly_fresh Hf) as [H _].
  destruct H as (M & HM & _); [repeat constructor|]. exists f, M. split; auto. split; auto. rewrite Rabs_pos_eq; lra.
Qed.

(** C28: negative frequencies give the complex conjugate. *)
Theorem C28_conjugation :
  forall p q a mo f ns M, fresh p -> ft_init p q a mo = Ok f -> ft_call f ns = Ok M ->
  ft_call f (map Z.opp ns) = Ok (map (map Cconj) M).
Proof. exact ft_conj. Qed.
Print Assumptions C28_conjugation.

(** C28: if the recorded parity is the parity of the function, then the part
    that extrema and sign_changes do not look at vanishes.  (Above the
    asymptotic threshold the parity must be that of the index, as for basis
    functions.) *)
Theorem C28_real_or_imaginary :
  forall p q a f ns M l c j v, fresh p -> ft_init p q a None = Ok f -> q <> FAny -> ft_call f ns = Ok M ->
  nth_error (vcols p) l = Some c -> entry M l j = Some v ->
  (csym c = 1 \/ csym c = -1) -> has_parity (vgeom p) c (csym c) ->
  (forall n x, nth_error ns j = Some n -> a = AsympAt x -> x <= Rabs (IZR n) -> csym c = (-1) ^ l) ->
  exists part, func_part (csym c) (ft_zeta q) = Ok part /\
    match part with RealPart => Im v = 0 | ImagPart => Re v = 0 end.
Proof. exact ft_parity. Qed.
Print Assumptions C28_real_or_imaginary.

Example C28_hypotheses_met :
  has_parity unit_geom square_col (csym square_col) /\ has_parity unit_geom line_col (csym line_col) /\
  csym square_col = (-1) ^ 0 /\ csym line_col = (-1) ^ 1.
Proof.
  assert (E0 : csym square_col = (-1) ^ 0) by (simpl; ring). assert (E1 : csym line_col = (-1) ^ 1) by (simpl; ring).
  split; [rewrite E0; exact square_has_parity|]. split; [rewrite E1; exact line_has_parity|]. auto.
Qed.

(** C29: the model is the series in inverse powers of i pi n / 2. *)
Theorem C29_model_series :
  forall ms n, n <> 0%Z ->
  giw ms n = csumn (length ms) (fun m => Cdiv (RtoC (nth m ms 0)) (cpow (0, PI / 2 * IZR n) (S m))).
Proof. exact giw_series. Qed.
Print Assumptions C29_model_series.

Theorem C29_model_at_zero : forall ms, giw ms 0 = RtoC 0.
Proof. exact giw_zero. Qed.
Print Assumptions C29_model_at_zero.

(** C29: the model replaces the exact transform exactly from the threshold on. *)
Theorem C29_switch :
  forall p q x f ns M l c j n v, fresh p -> ft_init p q (AsympAt x) None = Ok f -> ft_call f ns = Ok M ->
  nth_error (vcols p) l = Some c -> nth_error ns j = Some n -> entry M l j = Some v ->
  (x <= Rabs (IZR n) -> v = giw (ft_moments f l) n) /\
  (Rabs (IZR n) < x -> v = unl_entry (vgeom p) c n).
Proof. exact ft_switch. Qed.
Print Assumptions C29_switch.

(** C29: on one segment, for a function of parity (-1)^l, the value is the
    Fourier integral at every nonzero frequency, below and above threshold. *)
Theorem C29_exact_on_one_segment :
  forall p q x f ns M l c j n v, fresh p -> ft_init p q (AsympAt x) None = Ok f -> ft_call f ns = Ok M ->
  nth_error (vcols p) l = Some c -> nth_error ns j = Some n -> entry M l j = Some v ->
  has_parity (vgeom p) c ((-1) ^ l) -> gnseg (vgeom p) = 1%nat -> n <> 0%Z ->
  is_fourier (fun x => PI * IZR n * (x + 1) / 2) (cval (vgeom p) c) (-1) 1 (Cmult (RtoC (sqrt 2)) v).
Proof. exact ft_single. Qed.
Print Assumptions C29_exact_on_one_segment.

(** C29: on several segments the model misses exactly the jumps of the
    derivatives at the interior knots. *)
Theorem C29_model_error :
  forall p q x f ns M l c j n v, fresh p -> ft_init p q (AsympAt x) None = Ok f -> ft_call f ns = Ok M ->
  nth_error (vcols p) l = Some c -> nth_error ns j = Some n -> entry M l j = Some v ->
  has_parity (vgeom p) c ((-1) ^ l) -> x <= Rabs (IZR n) -> n <> 0%Z ->
  is_fourier (fun x => PI * IZR n * (x + 1) / 2) (cval (vgeom p) c) (-1) 1
    (Cplus (Cmult (RtoC (sqrt 2)) v)
       (csumn (gorder (vgeom p)) (fun m =>
          Cmult (Cdiv (RtoC ((-1) ^ m)) (cpow (0, PI / 2 * IZR n) (S m))) (jump_sum (vgeom p) c n m)))).
Proof. exact ft_model_error. Qed.
Print Assumptions C29_model_error.

(** C29: slicing and indexing commute with evaluation ... *)
Theorem C29_slicing :
  forall p q a f stop, fresh p -> ft_init p q a None = Ok f -> q <> FAny ->
  exists f', ft_slice f stop = Ok f' /\
    forall ns, ft_call f' ns = (do M <- ft_call f ns; Ok (slice_to stop M)).
Proof. exact ft_slicing. Qed.
Print Assumptions C29_slicing.

Theorem C29_indexing :
  forall p q a f l c, fresh p -> ft_init p q a None = Ok f -> q <> FAny ->
  pyindex (vcols p) l = Some c ->
  exists f', ft_item f l = Ok f' /\
    forall ns M, ft_call f ns = Ok M -> exists row, pyindex M l = Some row /\ ft_call f' ns = Ok [row].
Proof. exact ft_indexing. Qed.
Print Assumptions C29_indexing.

(** ... except that with freq='any' neither is possible. *)
Theorem C29_indexing_any_refuted :
  forall p f l c stop, fresh p -> ft_init p FAny NoAsymp None = Ok f -> pyindex (vcols p) l = Some c ->
  ft_item f l = Raise KeyError /\ ft_slice f stop = Raise KeyError.
Proof. exact ft_any_item. Qed.
Print Assumptions C29_indexing_any_refuted.

Example C29_hypotheses_met :
  fresh ft_poly /\ gnseg (vgeom ft_poly) = 1%nat /\
  has_parity (vgeom ft_poly) square_col ((-1) ^ 0) /\ has_parity (vgeom ft_poly) line_col ((-1) ^ 1) /\
  exists f M v, ft_init ft_poly FOdd (AsympAt 4) None = Ok f /\ ft_call f [5; -1]%Z = Ok M /\
    entry M 1 0 = Some v /\ v = giw (ft_moments f 1) 5.
Proof.
  split; [exact ft_poly_fresh|]. split; [reflexivity|]. split; [exact square_has_parity|]. split; [exact line_has_parity|].
  destruct (ft_poly_init FOdd (AsympAt 4)) as [f Hf]; [discriminate|].
  destruct (ft_call_iff _ _ _ _ _ [5; -1]%Z ft_poly_fresh Hf) as [H _].
  destruct H as (M & HM & _); [repeat constructor|].
  destruct (ft_ok_freq _ _ _ _ _ _ _ ft_poly_fresh Hf HM) as [_ EM].
  pose proof (ft_init_val _ _ _ _ _ Hf) as (_ & K & _).
  assert (Ev : entry M 1 0 = Some (ft_value f 1 line_col 5)).
  { rewrite EM. apply ft_rows_entry; [rewrite K; reflexivity|reflexivity]. }
  exists f, M, (ft_value f 1 line_col 5). split; [auto|]. split; [auto|]. split; [auto|].
  apply (ft_switch ft_poly FOdd 4 f [5; -1]%Z M 1 line_col 0 5 _ ft_poly_fresh Hf HM eq_refl eq_refl Ev).
  rewrite Rabs_pos_eq; lra.
Qed.

(** C30: the derivative keeps the order; its Fourier transform can be built but
    not evaluated. *)
Theorem C30_derivative_not_evaluable :
  forall p q a mo f m ns, fresh p -> (1 < gorder (vgeom p))%nat -> (0 < m)%nat -> vcols p <> [] -> ns <> [] ->
  gorder (vgeom (vderiv m p)) = gorder (vgeom p) /\
  (ft_init (vderiv m p) q a mo = Ok f -> ft_call f ns = Raise ValueError).
Proof. exact ft_derivative. Qed.
Print Assumptions C30_derivative_not_evaluable.

Theorem C30_derivative_constructible :
  forall p q a m, fresh p -> gxmin (vgeom p) = -1 -> gxmax (vgeom p) = 1 -> q <> FAny ->
  exists f, ft_init (vderiv m p) q a None = Ok f.
Proof. exact ft_derivative_init. Qed.
Print Assumptions C30_derivative_constructible.

Example C30_hypotheses_met :
  fresh ft_poly /\ (1 < gorder (vgeom ft_poly))%nat /\ vcols ft_poly <> [] /\
  gxmin (vgeom ft_poly) = -1 /\ gxmax (vgeom ft_poly) = 1.
Proof. split; [exact ft_poly_fresh|]. split; [simpl; lia|]. split; [discriminate|]. split; reflexivity. Qed.
