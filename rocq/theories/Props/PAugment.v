(** C59-C63: augmentations and augmented bases.  [compute] is an arbitrary
    computation of the singular value expansion. *)
From Coq Require Import Reals ZArith Arith Bool Lra Lia String.
From Coquelicot Require Import Coquelicot.
From Coq Require Import List.
From Verif.Model Require Import Base Util Num Poly FT SVE Basis Augment.
From Verif.Spec Require Import SUtil SPoly SFT SSVE SBasis SAugment.
From Verif.Proofs Require Import BasisPhys AugmentFacts AugmentProps SVEPolicy.
Import ListNotations.
Open Scope R_scope.
Notation length := List.length.

(** C59: on an array of even frequencies, hat gives the Fourier integrals of the
    function in imaginary time. *)
Theorem C59_hat_is_fourier :
  forall a f ns, tau_aug a -> 0 < aug_beta a -> is_function a f -> Forall (fun k => Z.even k = true) ns ->
  exists vs, aug_hat true a false (IntArr ns) = Ok vs /\
  Forall2 (fun k v => is_fourier (fun t => PI * IZR k * t / aug_beta a) f 0 (aug_beta a) v) ns vs.
Proof. exact hat_is_fourier. Qed.
Print Assumptions C59_hat_is_fourier.

(** C59: unit norm and orthogonality in imaginary time. *)
Theorem C59_orthonormal :
  forall b f g, 0 < b -> is_function (TauConst b) f -> is_function (TauLinear b) g ->
  is_RInt (fun t => f t * f t) 0 b 1 /\ is_RInt (fun t => g t * g t) 0 b 1 /\ is_RInt (fun t => f t * g t) 0 b 0.
Proof. exact norms. Qed.
Print Assumptions C59_orthonormal.

(** C59: odd frequencies are refused. *)
Theorem C59_odd_frequencies :
  forall np_complex a scalar ns, tau_aug a -> ~ Forall (fun k => Z.even k = true) ns ->
  aug_hat np_complex a scalar (IntArr ns) = Raise ValueError.
Proof. exact aug_hat_odd. Qed.
Print Assumptions C59_odd_frequencies.

(** C59: values and range in imaginary time. *)
Theorem C59_array_evaluation :
  forall a f ts, tau_aug a -> is_function a f ->
  (Forall (fun t => 0 <= t <= aug_beta a) ts -> aug_call a (FltArr (map Fin ts)) = Ok (map (fun t => Fin (f t)) ts)) /\
  (~ Forall (fun t => 0 <= t <= aug_beta a) ts -> aug_call a (FltArr (map Fin ts)) = Raise ValueError).
Proof.
  intros a f ts Ha Hf. pose proof (proj1 (is_function_iff a f Ha) Hf) as E. split; intros H.
  - rewrite aug_call_ok by auto. f_equal. apply map_ext_in. intros t Ht. rewrite E; auto.
    rewrite Forall_forall in H. auto.
  - apply aug_call_raises. cbn [values_of]. rewrite inside_fins. auto.
Qed.
Print Assumptions C59_array_evaluation.

(** C59: MatsubaraConst is 1 at every frequency and undefined in time. *)
Theorem C59_matsubara_const :
  forall np_complex b scalar ns ts,
  aug_hat np_complex (MatsubaraConst b) scalar (IntArr ns) = Ok (map (fun _ => RtoC 1) ns) /\
  (Forall (fun t => 0 <= t <= b) ts -> aug_call (MatsubaraConst b) (FltArr (map Fin ts)) = Ok (map (fun _ => NaN) ts)).
Proof. intros. split; [apply aug_hat_const|apply aug_call_nan]. Qed.
Print Assumptions C59_matsubara_const.

(** C59: hat of TauConst needs an attribute that recent numpy lacks, and hat of
    TauLinear refuses a single number. *)
Theorem C59_hat_every_call_refuted :
  forall np_complex b ns, Forall (fun k => Z.even k = true) ns ->
  aug_hat false (TauConst b) false (IntArr ns) = Raise AttributeError /\
  aug_hat np_complex (TauLinear b) true (IntArr ns) = Raise TypeError.
Proof. intros npc b ns H. split; rewrite aug_hat_ok by auto; reflexivity. Qed.
Print Assumptions C59_hat_every_call_refuted.

Example C59_hypotheses_met :
  exists f g, is_function (TauConst 2) f /\ is_function (TauLinear 2) g /\ g 2 <> g 0 /\
    Forall (fun k => Z.even k = true) [-4; 0; 6]%Z.
Proof.
  exists (tau_fun (TauConst 2)), (tau_fun (TauLinear 2)).
  split; [apply is_function_iff; [exact I|reflexivity]|]. split; [apply is_function_iff; [exact I|reflexivity]|].
  split.
  - cbn [tau_fun]. unfold lin_fun. assert (0 < sqrt (3 / 2)) by (apply sqrt_lt_R0; lra). nra.
  - repeat constructor.
Qed.

(** C60: deriv(n) on an array of floats. *)
Theorem C60_derivatives :
  forall a f n ts, tau_aug a -> 0 < aug_beta a -> is_function a f -> Forall (fun t => 0 < t < aug_beta a) ts ->
  exists vs, aug_deriv a n (FltArr (map Fin ts)) = Ok (map Fin vs) /\ Forall2 (fun t v => is_derive_n f n t v) ts vs.
Proof. exact deriv_ok. Qed.
Print Assumptions C60_derivatives.

(** C60: on an array of integers the first derivative is rounded to an integer. *)
Theorem C60_integer_arrays_refuted :
  exists f, is_function (TauLinear 3) f /\ is_derive_n f 1 1 (2 / 3) /\
  aug_deriv (TauLinear 3) 1 (FltArr [Fin 1]) = Ok [Fin (2 / 3)] /\
  aug_deriv (TauLinear 3) 1 (IntArr [1%Z]) = Ok [Fin 0].
Proof. exists (lin_fun 3). exact deriv_int_wrong. Qed.
Print Assumptions C60_integer_arrays_refuted.

(** C60: MatsubaraConst stays undefined. *)
Theorem C60_matsubara_const :
  forall b n ts, Forall (fun t => 0 <= t <= b) ts ->
  aug_deriv (MatsubaraConst b) n (FltArr (map Fin ts)) = Ok (map (fun _ => NaN) ts).
Proof. intros b n ts H. destruct n; cbn [aug_deriv]; apply aug_call_nan; auto. Qed.
Print Assumptions C60_matsubara_const.

Example C60_hypotheses_met :
  tau_aug (TauLinear 3) /\ 0 < aug_beta (TauLinear 3) /\ (exists f, is_function (TauLinear 3) f) /\
  Forall (fun t => 0 < t < aug_beta (TauLinear 3)) [1; 2].
Proof.
  split; [exact I|]. split; [cbn; lra|]. split; [exists (lin_fun 3); apply deriv_int_wrong|].
  cbn. repeat (constructor; [lra|]). constructor.
Qed.

(** C61: the values of u, row by row.  [args] are the augmentations given. *)
Theorem C61_u_layout :
  forall compute b, built compute b -> forall args a, augbasis_init b args = Ok a ->
  augsize a = (length args + bsize b)%nat /\
  forall xs M l, augu_call a xs = Ok M -> length M = augsize a /\
  ((l < augsize a)%nat -> exists it row, augu_item a (Z.of_nat l) = Ok it /\ item_values it xs = Ok row /\
     nth_error M l = Some row /\ from_parts (aaugs a) (map (SPoly (vgeom (bu b))) (vcols (bu b))) l it).
Proof. exact u_layout. Qed.
Print Assumptions C61_u_layout.

(** C61: u can be evaluated where the basis and all augmentations are defined. *)
Theorem C61_u_domain :
  forall compute b, built compute b -> forall augs xs,
  let a := AugBasis b augs in
  let inside := Forall (fun t => 0 <= t <= bbeta b) xs /\
                (forall f, In f augs -> Forall (fun t => 0 <= t <= aug_beta f) xs) in
  (inside -> is_ok (augu_call a xs)) /\ (~ inside -> augu_call a xs = Raise ValueError).
Proof. exact augu_success. Qed.
Print Assumptions C61_u_domain.

(** C61: the values of uhat, row by row. *)
Theorem C61_uhat_layout :
  forall compute b, built compute b -> forall augs np_complex scalar ns M l,
  let a := AugBasis b augs in
  auguhat_call np_complex a scalar ns = Ok M -> length M = augsize a /\
  ((l < augsize a)%nat -> exists it row, auguhat_item a (Z.of_nat l) = Ok it /\ hat_values np_complex scalar it ns = Ok row /\
     nth_error M l = Some row /\
     match it with inl f => nth_error augs l = Some f
                 | inr p => (length augs <= l)%nat /\ ft_item (buhat b) (Z.of_nat (l - length augs)) = Ok p end).
Proof. exact auguhat_rows. Qed.
Print Assumptions C61_uhat_layout.

(** C61: negative indices count from the end of the augmentations. *)
Theorem C61_negative_index_from_the_end_refuted :
  forall b augs j, (0 < j)%nat -> let a := AugBasis b augs in
  ((j <= length augs)%nat -> exists f, augu_item a (- Z.of_nat j) = Ok (inl f) /\ nth_error augs (length augs - j) = Some f) /\
  ((length augs < j)%nat -> augu_item a (- Z.of_nat j) = Raise IndexError).
Proof. exact augu_negative. Qed.
Print Assumptions C61_negative_index_from_the_end_refuted.

(** C61: basis[:z] keeps the augmentations and the first z - k functions. *)
Theorem C61_slices :
  forall compute b, built compute b -> forall augs e z, seps (bsve b) = Some e -> e <= 1 ->
  let a := AugBasis b augs in
  forall i, i = AIdxSlice None (Some z) None \/ i = AIdxSlice (Some 0%Z) (Some z) None \/
            i = AIdxSlice None (Some z) (Some 1%Z) \/ i = AIdxSlice (Some 0%Z) (Some z) (Some 1%Z) ->
  ((z <= Z.of_nat (length augs))%Z -> augbasis_getitem compute a i = Raise ValueError) /\
  ((Z.of_nat (length augs) < z)%Z ->
   let n := Nat.min (Z.to_nat z - length augs) (nabove e (ss (bsve b))) in
   exists a', augbasis_getitem compute a i = Ok a' /\ aaugs a' = augs /\ built compute (abasis a') /\
     same_setting b (abasis a') /\ augsize a' = (length augs + n)%nat /\
     ((n <= bsize b)%nat -> first_of n b (abasis a')) /\ ((bsize b <= n)%nat -> first_of (bsize b) (abasis a') b)).
Proof. exact aug_slicing. Qed.
Print Assumptions C61_slices.

(** C61: basis[:] and other indices raise. *)
Theorem C61_slice_errors :
  forall compute b augs, let a := AugBasis b augs in
  augbasis_getitem compute a (AIdxSlice None None None) = Raise TypeError /\
  (forall z, augbasis_getitem compute a (AIdxInt z) = Raise ValueError) /\
  (forall start stop step, (exists s, start = Some s /\ s <> 0%Z) \/ (exists s, step = Some s /\ s <> 1%Z) ->
     augbasis_getitem compute a (AIdxSlice start stop step) = Raise ValueError).
Proof. exact aug_slicing_errors. Qed.
Print Assumptions C61_slice_errors.

Theorem C61_u_slices :
  forall b augs z, let a := AugBasis b augs in
  ((z <= Z.of_nat (length augs))%Z -> augu_slice a (AIdxSlice None (Some z) None) = Raise NotImplementedError) /\
  ((Z.of_nat (length augs) < z)%Z ->
   augu_slice a (AIdxSlice None (Some z) None) = Ok (augs, take (Z.to_nat z - length augs) (bu b))) /\
  augu_slice a (AIdxSlice None None None) = Raise TypeError.
Proof. exact augu_slicing. Qed.
Print Assumptions C61_u_slices.

Example C61_hypotheses_met :
  exists b a M, built no_compute b /\ augbasis_init b [ACls CTauConst; ACls CTauLinear] = Ok a /\
    augu_call a [0; 1] = Ok M /\ length M = 4%nat /\ seps (bsve b) = Some (1 / 10).
Proof.
  destruct (ex_basis_stat "B") as (b & Hb & Hst & Hbe & Hr & Hs); auto.
  destruct (proj2 (init_cases b [ACls CTauConst; ACls CTauLinear] ltac:(lra))) as (a & Ha & Hab & F2).
  { rewrite Hst. intros [_ H]. congruence. }
  exists b, a. inversion F2 as [|? f1 ? l1 E1 F2']; subst. inversion F2' as [|? f2 ? l2 E2 F3]; subst. inversion F3; subst.
  rewrite aug_create_val in E1, E2 by lra. rewrite Hst in E1, E2. cbn in E1, E2. injection E1 as <-. injection E2 as <-.
  destruct a as [b0 augs]. cbn [abasis aaugs] in *. subst augs.
  destruct (proj1 (augu_success no_compute b0 Hb [TauConst (bbeta b0); TauLinear (bbeta b0)] [0; 1])) as [M HM].
  { rewrite Hbe. split; [repeat (constructor; [lra|]); constructor|].
    intros f [<-|[<-|[]]]; cbn [aug_beta]; repeat (constructor; [lra|]); constructor. }
  exists M. destruct (augu_rows no_compute b0 Hb _ _ M 0%nat HM) as [HL _].
  repeat match goal with |- _ /\ _ => split end; auto.
  - rewrite HL. unfold augsize, naug. cbn [aaugs abasis length]. lia.
  - rewrite Hr. reflexivity.
Qed.

(** C62: construction from classes. *)
Theorem C62_construction :
  forall compute b, built compute b -> forall args,
  ((exists x, In x args /\ bosonic_class x) /\ bstat b <> "B"%string -> augbasis_init b args = Raise ValueError) /\
  (~ ((exists x, In x args /\ bosonic_class x) /\ bstat b <> "B"%string) ->
   exists a, augbasis_init b args = Ok a /\ abasis a = b /\
     Forall2 (fun x f => match x with AObj o => f = o | ACls c => aug_create c b = Ok f end) args (aaugs a)).
Proof. intros compute b Hb args. apply init_cases. exact (beta_pos compute b Hb). Qed.
Print Assumptions C62_construction.

(** C62: what a class becomes. *)
Theorem C62_created :
  forall compute b c f, built compute b -> aug_create c b = Ok f -> aug_beta f = bbeta b /\
  match c with CTauConst => f = TauConst (bbeta b) | CTauLinear => f = TauLinear (bbeta b)
             | CMatsubaraConst => f = MatsubaraConst (bbeta b) end.
Proof.
  intros compute b c f Hb H. rewrite aug_create_val in H by exact (beta_pos compute b Hb).
  destruct c; try destruct (String.eqb (bstat b) "B"); try discriminate; injection H as <-; auto.
Qed.
Print Assumptions C62_created.

(** C62: objects are accepted whatever the statistics, but then evaluation of
    uhat at an odd frequency raises, and so for fermions at any frequency. *)
Theorem C62_objects :
  forall b augs, augbasis_init b (map AObj augs) = Ok (AugBasis b augs).
Proof. exact init_objects. Qed.
Print Assumptions C62_objects.

Theorem C62_odd_frequency_raises :
  forall compute b, built compute b -> forall augs np_complex scalar ns,
  (exists f, In f augs /\ tau_aug f) -> ~ Forall (fun k => Z.even k = true) ns ->
  auguhat_call np_complex (AugBasis b augs) scalar ns = Raise ValueError.
Proof. exact odd_raises. Qed.
Print Assumptions C62_odd_frequency_raises.

Theorem C62_fermionic_uhat_raises :
  forall compute b, built compute b -> forall augs np_complex scalar ns, bstat b = "F"%string ->
  (exists f, In f augs /\ tau_aug f) -> ns <> [] ->
  auguhat_call np_complex (AugBasis b augs) scalar ns = Raise ValueError.
Proof. exact fermion_raises. Qed.
Print Assumptions C62_fermionic_uhat_raises.

Example C62_hypotheses_met :
  exists b, built no_compute b /\ bstat b = "F"%string /\
    (exists x, In x [ACls CMatsubaraConst; ACls CTauLinear] /\ bosonic_class x) /\
    (exists f, In f [TauConst 1] /\ tau_aug f) /\ ~ Forall (fun k => Z.even k = true) [1%Z].
Proof.
  destruct (ex_basis_stat "F") as (b & Hb & Hst & _); auto. exists b. split; auto. split; auto.
  split; [exists (ACls CTauLinear); split; [right; left; auto|right; auto]|].
  split; [exists (TauConst 1); split; [left; auto|exact I]|]. intros H. inversion H. discriminate.
Qed.

(** C63: reading statistics raises TypeError, xmax is xmin (and not beta), and u
    cannot be differentiated. *)
Theorem C63_accessors :
  forall compute b, built compute b -> forall augs n, let a := AugBasis b augs in
  aug_statistics a = Raise TypeError /\ augu_xmin a = 0 /\ augu_xmax a = 0 /\ 0 < bbeta b /\
  augu_deriv a n = Raise TypeError.
Proof. exact accessors. Qed.
Print Assumptions C63_accessors.

Example C63_hypotheses_met : exists b, built no_compute b /\ bbeta b = 2.
Proof. destruct (ex_basis_stat "B") as (b & Hb & _ & Hbe & _); auto. exists b. auto. Qed.
