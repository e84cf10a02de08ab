(** Sampling on bases in rounded arithmetic (C100). *)
From Coq Require Import String ZArith Arith Bool Reals Lra Lia Psatz.
From Coquelicot Require Import Coquelicot.
From Coq Require Import List.
From Verif.Model Require Import Base Util Num Poly PolyIEEE FT FTIEEE SVE Matsubara Basis BasisIEEE NDArray Sampling SamplingIEEE TransformIEEE.
From Verif.Spec Require Import SPoly SFT SSVE SBasis SComputed SKernelIEEE SRounded SSampling SSamplingIEEE STransform SPolyIEEE SFTIEEE SSVEIEEE SBasisIEEE SWholeIEEE STransformIEEE SDefaults.
From Verif.Proofs Require Import BaseFacts SumFacts FTFacts FTModel DLRProps LstsqFacts NDFacts SamplingFacts SplitFacts SamplingProps TransformFacts CVec FitRound NDRel SamplingRound SamplingRoundProps
  PolyRound FTRoundProps BasisRound BasisRoundProps WholeRound TransformRound Bessel.
Import ListNotations.
Open Scope R_scope.
Notation length := List.length.

(** * General facts *)
Lemma slices_mono a N (P Q : (nat -> C) -> (nat -> C) -> Prop) x y : (forall g h, P g h -> Q g h) -> slices a N P x y -> slices a N Q x y.
Proof. intros H (S & E). split; [exact S|]. intros idx Hi. apply H, E, Hi. Qed.
Lemma along_mono op L N (P Q : (nat -> C) -> (nat -> C) -> Prop) : (forall g h, P g h -> Q g h) -> slices_along op L N P -> slices_along op L N Q.
Proof. intros HPQ H x k. specialize (H x k). destruct (axis_of _ k); [|exact H]. destruct (Nat.eqb _ _); [|exact H]. destruct H as (y & E & S). exists y. split; [exact E|]. eapply slices_mono; eauto. Qed.
Lemma default_mono op L N (P Q : (nat -> C) -> (nat -> C) -> Prop) : (forall g h, P g h -> Q g h) -> slices_default op L N P -> slices_default op L N Q.
Proof. intros HPQ H x. specialize (H x). destruct (length (shp x)); [exact H|]. destruct (Nat.eqb _ _); [|exact H]. destruct H as (y & E & S). exists y. split; [exact E|]. eapply slices_mono; eauto. Qed.

Lemma fits_respects G A gam th u eta a c d lo hi : respects (fits G A gam th u eta a c d lo hi).
Proof.
  intros x x' y y' E1 E2 H g Gg. specialize (H g Gg).
  rewrite (size_ext (mc A) (vsub y' g) (vsub y g)) by (intros; unfold vsub; now rewrite E2).
  rewrite (size_ext (mr A) (vsub (apply_mat A g) x') (vsub (apply_mat A g) x)) by (intros; unfold vsub; now rewrite E1).
  rewrite (size_ext (mr A) x' x) by (intros; now rewrite E1). exact H.
Qed.

Lemma fit_error_rs n gam th u eta a c d lo hi gs rs rs' xs : 0 < lo -> rs <= rs' -> fit_error n gam th u eta a c d lo hi gs rs xs <= fit_error n gam th u eta a c d lo hi gs rs' xs.
Proof.
  intros Hl H. unfold fit_error. assert (2 * rs / lo <= 2 * rs' / lo) by (apply Rmult_le_compat_r; [left; now apply Rinv_0_lt_compat|lra]). lra.
Qed.

Lemma residual_of A B e g x y : entries_near A B e -> (forall i, (i < mr A)%nat -> y i = apply_mat B g i) ->
  size (mr A) (vsub (apply_mat A g) x) <= size (mr A) (vsub y x) + e * sqrt (INR (mr A)) * sqrt (INR (mc A)) * size (mc A) g.
Proof.
  intros HE Hy. pose proof (size_tri (mr A) (apply_mat A g) y x) as T. pose proof (true_data A B e g y HE Hy). lra.
Qed.

Lemma fits_data G A B e gam th u eta a c d lo hi x y g w : 0 < lo -> entries_near A B e -> fits G A gam th u eta a c d lo hi x y -> G g ->
  (forall i, (i < mr A)%nat -> w i = apply_mat B g i) ->
  size (mc A) (vsub y g) <= data_error (mr A) (mc A) gam th u eta a c d lo hi e g w x.
Proof. intros Hl HE H Gg Hw. eapply Rle_trans; [exact (H g Gg)|]. apply fit_error_rs; [exact Hl|]. eapply residual_of; eauto. Qed.

Lemma sum_size n (y : nat -> C) : sumn n (fun l => Cmod (y l)) <= sqrt (INR n) * size n y.
Proof.
  rewrite (sumn_ext _ _ (fun l => 1 * Cmod (y l))) by (intros; ring). eapply Rle_trans; [apply (sum_cs n (fun _ => 1) (fun l => Cmod (y l)))|].
  rewrite rsize_const, rsize_mod by lra. rewrite Rmult_1_r. apply Rle_refl.
Qed.
Lemma sum_prod n (r y : nat -> C) : sumn n (fun l => Cmod (r l) * Cmod (y l)) <= size n r * size n y.
Proof. eapply Rle_trans; [apply (sum_cs n (fun l => Cmod (r l)) (fun l => Cmod (y l)))|]. rewrite !rsize_mod. apply Rle_refl. Qed.

Lemma transfer_rows A B e rho gam th g y z f j : entries_near A B e -> 0 <= gam -> values_near A gam th y z -> (j < mr A)%nat ->
  size (mc A) (me B j) <= rho -> size (mc A) (vsub y g) <= f ->
  Cmod (Cminus (z j) (apply_mat B g j)) <= transfer_error (mc A) rho gam th e (size (mc A) g) f.
Proof.
  intros HE Pg HV Hj Hr Hf. pose proof HE as (Er & Ec & Pe & _). pose proof (true_values _ _ _ _ _ _ _ HE Pg HV j) as V. rewrite Er in V. specialize (V Hj). rewrite Ec in V.
  fold (apply_mat B y j) in V. assert (EB : apply_mat B y j = csumn (mc A) (fun l => Cmult (me B j l) (y l))) by (unfold apply_mat; now rewrite Ec). rewrite <- EB in V.
  set (L := mc A) in *. pose proof (sum_size L y) as S1. pose proof (sum_prod L (me B j) y) as S2. pose proof (size_pos L y) as Py. pose proof (size_pos L g) as Pgs.
  pose proof (size_pos L (me B j)) as Pr. pose proof (size_close L y g) as Yc. pose proof (size_pos L (vsub y g)) as Pd.
  assert (D : Cmod (Cminus (apply_mat B y j) (apply_mat B g j)) <= rho * f).
  { unfold apply_mat. rewrite Ec. fold L. rewrite <- csumn_minus. eapply Rle_trans; [apply csumn_Cmod|].
    eapply Rle_trans; [apply (sumn_le L _ (fun l => Cmod (me B j l) * Cmod (vsub y g l)))|].
    - intros l _. unfold vsub. rewrite <- Cmod_mult. right. f_equal. ring.
    - eapply Rle_trans; [apply sum_prod|]. apply Rmult_le_compat; assumption. }
  unfold transfer_error. replace (Cminus (z j) (apply_mat B g j)) with (Cplus (Cminus (z j) (apply_mat B y j)) (Cminus (apply_mat B y j) (apply_mat B g j))) by ring.
  eapply Rle_trans; [apply Cmod_triangle|].
  assert (T1 : gam * sumn L (fun l => Cmod (me B j l) * Cmod (y l)) <= gam * (rho * (size L g + f))).
  { apply Rmult_le_compat_l; [exact Pg|]. eapply Rle_trans; [exact S2|]. apply Rmult_le_compat; lra. }
  assert (T2 : (1 + gam) * e * sumn L (fun l => Cmod (y l)) <= (1 + gam) * e * (sqrt (INR L) * (size L g + f))).
  { apply Rmult_le_compat_l; [apply Rmult_le_pos; lra|]. eapply Rle_trans; [exact S1|]. apply Rmult_le_compat_l; [apply sqrt_pos|lra]. }
  lra.
Qed.

Section Basis.
Variables (u eta : R) (rd : R -> R) (pw : R -> Z -> R) (compute compute' : kern -> option R -> res sve_result) (b : basis).
Hypothesis Hrd : rounding u eta rd.
Hypothesis Hu : 0 < u <= / 10000.
Hypothesis He : 0 <= eta.
Hypothesis Hb : built_rd u eta rd pw compute b.
Variable b0 : basis.
Hypothesis H0 : exact_version compute' b b0.
Variables (old : bool) (F : flib) (model : nat -> Z -> C).
Let sb := sb_of_basis_rd old rd F model b.
Let g0 := vgeom (su (bsve b)).
Let L := bsize b0.
Let beta := bbeta b.

(** * One sampling object *)
Section Times.
Variables (svd : mat -> svd_result) (pts : list R) (st : tsampling) (e : R).
Hypothesis Hft : fair_times u eta b b0 e.
Hypothesis Hst : tau_sampling svd sb pts = Ok st.

Lemma times_row B j t : time_matrix u (bu b0) pts B -> nth_error pts j = Some t -> forall rho, (forall i t r, values_in (bu b0) i t r -> size L r <= rho) -> size L (me B j) <= rho.
Proof. intros (_ & _ & H) Hj rho Hr. destruct (H j t Hj) as (i & t' & _ & V). exact (Hr _ _ _ V). Qed.

Lemma tau_evaluate_true ar N gam th rho : dot_near N gam th (ar_dot ar) -> (L <= N)%nat -> (forall i t r, values_in (bu b0) i t r -> size L r <= rho) ->
  exists B, time_matrix u (bu b0) pts B /\
  let P g z := times_near B g z (transfer_error L rho gam th e (size L g) 0) in
  slices_along (fun g k => t_evaluate_rd ar svd st g (Some k) None) L (length pts) P /\ slices_default (fun g => t_evaluate_rd ar svd st g None None) L (length pts) P.
Proof.
  intros HD HN Hr. destruct (time_near u eta rd pw compute compute' b Hrd Hu He Hb b0 H0 old F model svd pts st e Hft Hst) as (B & HB & HE & Er & Ec). fold L in Ec.
  exists B. split; [exact HB|]. cbv zeta. destruct (tau_evaluate_near ar N gam th svd st HD ltac:(lia)) as (V1 & V2). rewrite Er, Ec in V1, V2.
  assert (M : forall g z, values_near (d_a (ts_matrix st)) gam th g z -> times_near B g z (transfer_error L rho gam th e (size L g) 0)).
  { intros g z V j Hj. rewrite (proj1 HB) in Hj. destruct (nth_error pts j) as [t|] eqn:Et; [|apply nth_error_None in Et; lia]. rewrite <- Ec.
    apply (transfer_rows (d_a (ts_matrix st)) B e rho gam th g g z 0 j HE (proj1 HD) V); [lia|rewrite Ec; exact (times_row B j t HB Et rho Hr)|].
    unfold size. replace (norm2 (mc (d_a (ts_matrix st))) (vsub g g)) with 0; [rewrite sqrt_0; lra|]. symmetry. unfold norm2. apply sumn_zero. intros l _. unfold vsub. replace (Cminus (g l) (g l)) with (RtoC 0) by ring. rewrite Cmod_0. ring. }
  split; [eapply along_mono|eapply default_mono]; eauto.
Qed.
End Times.

Section Frequencies.
Variables (ej ec um em gamF thF : R).
Hypothesis HF : library_near (gorder g0) (gorder g0 * gnseg g0) u ej ec um em gamF thF F.
Hypothesis Hsm : small_library ej ec um em gamF.
Variables (svd' : mat -> svd_result) (ns : list Z) (pos : bool) (sm : msampling) (eh : R).
Hypothesis Hff : fair_frequencies u eta (constant_error u ej ec um em gamF) thF rd b b0 ns eh.
Hypothesis Hsm' : matsubara_sampling svd' sb ns pos = Ok sm.
Variables (h : nat -> R -> R) (a0 : R).
Hypothesis Hh : forall l, (l < L)%nat -> represents (bu b0) l (h l).
Hypothesis Ho : nearly_orthonormal_functions (bu b0) a0.
Let rho := sqrt (beta * (1 + INR L * a0)).

Lemma beta_pos : 0 < beta.
Proof. destruct (built_rd_inv u eta rd pw compute b Hb) as (q & e & ms & lam & f & Pb & _). exact Pb. Qed.

Lemma integral_of (H : mat) j n g : mc H = L -> (forall l, (l < L)%nat -> is_fourier (fun t => PI * IZR n * t / beta) (h l) 0 beta (me H j l)) ->
  in_frequency beta (combination L h g) n (apply_mat H g j).
Proof.
  intros Ec HI. unfold in_frequency, combination, apply_mat. rewrite Ec. apply (is_fourier_c_sum (fun t => PI * IZR n * t / beta) L (fun l t => RtoC (h l t)) 0 beta (me H j) g).
  intros l Hl. eapply is_fourier_c_real; [left; exact beta_pos| |exact (HI l Hl)]. reflexivity.
Qed.

Lemma frequency_rows : exists H, mr H = length ns /\ mc H = L /\ (forall j n g, nth_error ns j = Some n -> in_frequency beta (combination L h g) n (apply_mat H g j)) /\
  (forall j, (j < length ns)%nat -> size L (me H j) <= rho) /\ entries_near (m_a (ms_matrix sm)) H eh /\ mr (m_a (ms_matrix sm)) = length ns /\ mc (m_a (ms_matrix sm)) = L.
Proof.
  destruct (frequency_near u eta rd pw compute compute' b Hrd Hu He Hb b0 H0 old F model svd' ns pos sm eh ej ec um em gamF thF h HF Hsm Hff Hsm' Hh) as (H & E1 & E2 & E3 & E4 & E5 & E6).
  exists H. split; [exact E1|]. split; [exact E2|]. split; [|split; [|split; [exact E4|split; assumption]]].
  - intros j n g Hn. apply integral_of; [exact E2|]. exact (E3 j n Hn).
  - intros j Hj. destruct (nth_error ns j) as [n|] eqn:En; [|apply nth_error_None in En; lia].
    exact (row_bound u eta rd pw compute compute' b Hb b0 H0 n h (me H j) a0 Hh Ho (E3 j n En)).
Qed.

Lemma mats_evaluate_true ar N gam th : dot_near N gam th (ar_dot ar) -> (L <= N)%nat ->
  let P g z := frequencies_near beta L h ns g z (transfer_error L rho gam th eh (size L g) 0) in
  slices_along (fun g k => m_evaluate_rd ar svd' sm g (Some k) None) L (length ns) P /\ slices_default (fun g => m_evaluate_rd ar svd' sm g None None) L (length ns) P.
Proof.
  intros HD HN. cbv zeta. destruct frequency_rows as (H & E1 & E2 & E3 & E4 & HE & Er & Ec).
  destruct (mats_evaluate_near ar N gam th svd' sm HD ltac:(lia)) as (V1 & V2). rewrite Er, Ec in V1, V2.
  assert (M : forall g z, values_near (m_a (ms_matrix sm)) gam th g z -> frequencies_near beta L h ns g z (transfer_error L rho gam th eh (size L g) 0)).
  { intros g z V j n Hn. exists (apply_mat H g j). split; [exact (E3 j n g Hn)|]. assert (Hj : (j < length ns)%nat) by (apply nth_error_Some; congruence). rewrite <- Ec.
    apply (transfer_rows (m_a (ms_matrix sm)) H eh rho gam th g g z 0 j HE (proj1 HD) V); [lia|rewrite Ec; exact (E4 j Hj)|].
    unfold size. replace (norm2 (mc (m_a (ms_matrix sm))) (vsub g g)) with 0; [rewrite sqrt_0; lra|]. symmetry. unfold norm2. apply sumn_zero. intros l _. unfold vsub. replace (Cminus (g l) (g l)) with (RtoC 0) by ring. rewrite Cmod_0. ring. }
  split; [eapply along_mono|eapply default_mono]; eauto.
Qed.

(** * Between the two *)
Variables (svd : mat -> svd_result) (pts : list R) (st : tsampling) (e : R).
Hypothesis Hft : fair_times u eta b b0 e.
Hypothesis Hst : tau_sampling svd sb pts = Ok st.
Variables (ar : arith) (N : nat) (gam th ua etaa a c d lo hi : R).
Hypothesis Har : arith_near N gam th ua etaa lo hi ar.

Lemma time_to_frequency_true : let A := d_a (ts_matrix st) in decomposes A (svd A) a c d lo hi -> small_fit L gam ua a c -> (length pts <= N)%nat -> (L <= N)%nat ->
  exists B, time_matrix u (bu b0) pts B /\
  let P x z := forall g, frequencies_near beta L h ns g z
    (transfer_error L rho gam th eh (size L g) (data_error (length pts) L gam th ua etaa a c d lo hi e g (apply_mat B g) x)) in
  slices_along (fun x k => do y <- coeffs (t_fit_rd ar svd st x (Some k) None); m_evaluate_rd ar svd' sm y (Some k) None) (length pts) (length ns) P /\
  slices_default (fun x => do y <- coeffs (t_fit_rd ar svd st x None None); m_evaluate_rd ar svd' sm y None None) (length pts) (length ns) P.
Proof.
  intros A HD HS Kr Kc. destruct (time_near u eta rd pw compute compute' b Hrd Hu He Hb b0 H0 old F model svd pts st e Hft Hst) as (B & HB & HE & Er & Ec). fold A in HE, Er, Ec. fold L in Ec.
  exists B. split; [exact HB|]. cbv zeta. destruct frequency_rows as (H & F1 & F2 & F3 & F4 & HEf & Efr & Efc).
  destruct (version_cols u eta rd pw compute compute' b Hb b0 H0) as (_ & _ & _ & PL). fold L in PL.
  destruct (mats_evaluate_near ar N gam th svd' sm (proj1 Har) ltac:(lia)) as (V1 & V2). rewrite Efr, Efc in V1, V2.
  destruct (tau_fit_near ar N gam th ua etaa lo hi svd sb pts st a c d Har Hst HD ltac:(fold A; rewrite Ec; exact HS) ltac:(fold A; lia) ltac:(fold A; lia) ltac:(fold A; lia)) as (T1 & T2). fold A in T1, T2. rewrite Er, Ec in T1, T2.
  assert (Pl : 0 < lo) by (unfold decomposes in HD; tauto).
  assert (M : forall x y z, fits (fun _ => True) A gam th ua etaa a c d lo hi x y -> values_near (m_a (ms_matrix sm)) gam th y z ->
     forall g, frequencies_near beta L h ns g z (transfer_error L rho gam th eh (size L g) (data_error (length pts) L gam th ua etaa a c d lo hi e g (apply_mat B g) x))).
  { intros x y z Hy Hz g j n Hn. exists (apply_mat H g j). split; [exact (F3 j n g Hn)|]. assert (Hj : (j < length ns)%nat) by (apply nth_error_Some; congruence).
    pose proof (fits_data _ A B e gam th ua etaa a c d lo hi x y g (apply_mat B g) Pl HE Hy I (fun i _ => eq_refl)) as D. rewrite Er, Ec in D.
    rewrite <- Efc at 1 2. apply (transfer_rows (m_a (ms_matrix sm)) H eh rho gam th g y z _ j HEf (proj1 (proj1 Har)) Hz); [lia|rewrite Efc; exact (F4 j Hj)|rewrite Efc; exact D]. }
  split.
  - eapply along_comp; [apply fits_respects|exact PL|exact M| |exact V1]. eapply along_mono; [|exact T1]. intros x y Hxy. exact (proj1 Hxy).
  - eapply default_comp; [apply fits_respects|exact PL|exact M| |exact V2]. eapply default_mono; [|exact T2]. intros x y Hxy. exact (proj1 Hxy).
Qed.

Variable rho' : R.
Hypothesis Hrho' : forall i t r, values_in (bu b0) i t r -> size L r <= rho'.

Lemma back_to_times (G : (nat -> C) -> Prop) : (0 < lo) -> (L <= N)%nat ->
  slices_along (fun x k => coeffs (m_fit_rd ar svd' sm x (Some k) None)) (length ns) L (fits G (m_a (ms_matrix sm)) gam th ua etaa a c d lo hi) ->
  slices_default (fun x => coeffs (m_fit_rd ar svd' sm x None None)) (length ns) L (fits G (m_a (ms_matrix sm)) gam th ua etaa a c d lo hi) ->
  exists B, time_matrix u (bu b0) pts B /\
  let P x z := forall g W, G g -> (forall j n, nth_error ns j = Some n -> in_frequency beta (combination L h g) n (W j)) ->
    times_near B g z (transfer_error L rho' gam th e (size L g) (data_error (length ns) L gam th ua etaa a c d lo hi eh g W x)) in
  slices_along (fun x k => do y <- coeffs (m_fit_rd ar svd' sm x (Some k) None); t_evaluate_rd ar svd st y (Some k) None) (length ns) (length pts) P /\
  slices_default (fun x => do y <- coeffs (m_fit_rd ar svd' sm x None None); t_evaluate_rd ar svd st y None None) (length ns) (length pts) P.
Proof.
  intros Pl Kc T1 T2. destruct (time_near u eta rd pw compute compute' b Hrd Hu He Hb b0 H0 old F model svd pts st e Hft Hst) as (B & HB & HE & Er & Ec). fold L in Ec.
  exists B. split; [exact HB|]. cbv zeta. destruct frequency_rows as (H & F1 & F2 & F3 & F4 & HEf & Efr & Efc).
  destruct (version_cols u eta rd pw compute compute' b Hb b0 H0) as (_ & _ & _ & PL). fold L in PL.
  destruct (tau_evaluate_near ar N gam th svd st (proj1 Har) ltac:(lia)) as (V1 & V2). rewrite Er, Ec in V1, V2.
  assert (M : forall x y z, fits G (m_a (ms_matrix sm)) gam th ua etaa a c d lo hi x y -> values_near (d_a (ts_matrix st)) gam th y z ->
     forall g W, G g -> (forall j n, nth_error ns j = Some n -> in_frequency beta (combination L h g) n (W j)) ->
     times_near B g z (transfer_error L rho' gam th e (size L g) (data_error (length ns) L gam th ua etaa a c d lo hi eh g W x))).
  { intros x y z Hy Hz g W Gg HW j Hj. rewrite (proj1 HB) in Hj. destruct (nth_error pts j) as [t|] eqn:Et; [|apply nth_error_None in Et; lia].
    assert (EW : forall i, (i < mr (m_a (ms_matrix sm)))%nat -> W i = apply_mat H g i).
    { intros i Hi. rewrite Efr in Hi. destruct (nth_error ns i) as [n|] eqn:En; [|apply nth_error_None in En; lia]. exact (is_fourier_c_unique _ _ _ _ _ _ (HW i n En) (F3 i n g En)). }
    pose proof (fits_data _ _ H eh gam th ua etaa a c d lo hi x y g W Pl HEf Hy Gg EW) as D. rewrite Efr, Efc in D.
    rewrite <- Ec at 1 2. apply (transfer_rows (d_a (ts_matrix st)) B e rho' gam th g y z _ j HE (proj1 (proj1 Har)) Hz); [lia|rewrite Ec; exact (times_row pts B j t HB Et rho' Hrho')|rewrite Ec; exact D]. }
  split.
  - eapply along_comp; [apply fits_respects|exact PL|exact M|exact T1|exact V1].
  - eapply default_comp; [apply fits_respects|exact PL|exact M|exact T2|exact V2].
Qed.
End Frequencies.
End Basis.

(** * From frequencies to times *)
Section Final.
Variables (u eta : R) (rd : R -> R) (pw : R -> Z -> R) (compute compute' : kern -> option R -> res sve_result) (b b0 : basis) (old : bool) (F : flib) (model : nat -> Z -> C).
Hypothesis Hrd : rounding u eta rd.
Hypothesis Hu : 0 < u <= / 10000.
Hypothesis He : 0 <= eta.
Hypothesis Hb : built_rd u eta rd pw compute b.
Hypothesis H0 : exact_version compute' b b0.
Let sb := sb_of_basis_rd old rd F model b.
Let g0 := vgeom (su (bsve b)).
Let L := bsize b0.
Let beta := bbeta b.
Variables (ej ec um em gamF thF : R).
Hypothesis HF : library_near (gorder g0) (gorder g0 * gnseg g0) u ej ec um em gamF thF F.
Hypothesis Hsm : small_library ej ec um em gamF.
Variables (svd svd' : mat -> svd_result) (pts : list R) (ns : list Z) (st : tsampling) (e eh : R) (h : nat -> R -> R).
Hypothesis Hft : fair_times u eta b b0 e.
Hypothesis Hff : fair_frequencies u eta (constant_error u ej ec um em gamF) thF rd b b0 ns eh.
Hypothesis Hst : tau_sampling svd sb pts = Ok st.
Hypothesis Hh : forall l, (l < L)%nat -> represents (bu b0) l (h l).
Variable a0 : R.
Hypothesis Ho : nearly_orthonormal_functions (bu b0) a0.
Variable rho : R.
Hypothesis Hrho : forall i t r, values_in (bu b0) i t r -> size L r <= rho.
Variables (ar : arith) (N : nat) (gam th ua etaa a c d lo hi : R).
Hypothesis Har : arith_near N gam th ua etaa lo hi ar.
Hypothesis HS : small_fit L gam ua a c.
Hypothesis Kr : (length ns <= N)%nat.
Hypothesis Kc : (L <= N)%nat.

Lemma frequency_to_time_true sm : matsubara_sampling svd' sb ns false = Ok sm -> let A := m_a (ms_matrix sm) in decomposes A (svd' A) a c d lo hi ->
  exists B, time_matrix u (bu b0) pts B /\
  let P x z := forall g W, (forall j n, nth_error ns j = Some n -> in_frequency beta (combination L h g) n (W j)) ->
    times_near B g z (transfer_error L rho gam th e (size L g) (data_error (length ns) L gam th ua etaa a c d lo hi eh g W x)) in
  slices_along (fun x k => do y <- coeffs (m_fit_rd ar svd' sm x (Some k) None); t_evaluate_rd ar svd st y (Some k) None) (length ns) (length pts) P /\
  slices_default (fun x => do y <- coeffs (m_fit_rd ar svd' sm x None None); t_evaluate_rd ar svd st y None None) (length ns) (length pts) P.
Proof.
  intros Hm A HD.
  destruct (frequency_near u eta rd pw compute compute' b Hrd Hu He Hb b0 H0 old F model svd' ns false sm eh ej ec um em gamF thF h HF Hsm Hff Hm Hh) as (_ & _ & _ & _ & _ & E5 & E6). fold A in E5, E6. fold L in E6.
  destruct (version_cols u eta rd pw compute compute' b Hb b0 H0) as (_ & _ & _ & PL). fold L in PL.
  destruct (mats_fit_near ar N gam th ua etaa lo hi svd' sb ns sm a c d Har Hm HD ltac:(fold A; rewrite E6; exact HS) ltac:(fold A; lia) ltac:(fold A; lia) ltac:(fold A; lia)) as (T1 & T2). fold A in T1, T2. rewrite E5, E6 in T1, T2.
  assert (Pl : 0 < lo) by (unfold decomposes in HD; tauto).
  destruct (back_to_times u eta rd pw compute compute' b Hrd Hu He Hb b0 H0 old F model ej ec um em gamF thF HF Hsm svd' ns false sm eh Hff Hm h a0 Hh Ho svd pts st e Hft Hst ar N gam th ua etaa a c d lo hi Har rho Hrho (fun _ => True) Pl Kc) as (B & HB & S1 & S2).
  - eapply along_mono; [|exact T1]. intros x y Hxy. exact (proj1 Hxy).
  - eapply default_mono; [|exact T2]. intros x y Hxy. exact (proj1 Hxy).
  - exists B. split; [exact HB|]. cbv zeta. split; [eapply along_mono; [|exact S1]|eapply default_mono; [|exact S2]]; intros x z Hxz g W; exact (Hxz g W I).
Qed.

Lemma positive_to_time_true sm : matsubara_sampling svd' sb ns true = Ok sm -> let A := m_a (ms_matrix sm) in let A' := stacked A (zoff ns) in
  decomposes A' (svd' A') a c d lo hi -> real_decomposition A' (svd' A') -> zero_row_real ns A ->
  exists B, time_matrix u (bu b0) pts B /\
  let P x z := forall g W, real_vec L g -> (forall j n, nth_error ns j = Some n -> in_frequency beta (combination L h g) n (W j)) ->
    times_near B g z (transfer_error L rho gam th e (size L g) (data_error (length ns) L gam th ua etaa a c d lo hi eh g W x)) in
  slices_along (fun x k => do y <- coeffs (m_fit_rd ar svd' sm x (Some k) None); t_evaluate_rd ar svd st y (Some k) None) (length ns) (length pts) P /\
  slices_default (fun x => do y <- coeffs (m_fit_rd ar svd' sm x None None); t_evaluate_rd ar svd st y None None) (length ns) (length pts) P.
Proof.
  intros Hm A A' HD HR HZ.
  destruct (frequency_near u eta rd pw compute compute' b Hrd Hu He Hb b0 H0 old F model svd' ns true sm eh ej ec um em gamF thF h HF Hsm Hff Hm Hh) as (_ & _ & _ & _ & _ & E5 & E6). fold A in E5, E6. fold L in E6.
  destruct (version_cols u eta rd pw compute compute' b Hb b0 H0) as (_ & _ & _ & PL). fold L in PL.
  destruct (pos_fit_near ar N gam th ua etaa lo hi svd' sb ns sm a c d Har Hm HD HR HZ ltac:(fold A; rewrite E6; exact HS) ltac:(fold A; lia) ltac:(fold A; lia) ltac:(fold A; lia)) as (T1 & T2). fold A in T1, T2. rewrite E5, E6 in T1, T2.
  assert (Pl : 0 < lo) by (unfold decomposes in HD; tauto).
  destruct (back_to_times u eta rd pw compute compute' b Hrd Hu He Hb b0 H0 old F model ej ec um em gamF thF HF Hsm svd' ns true sm eh Hff Hm h a0 Hh Ho svd pts st e Hft Hst ar N gam th ua etaa a c d lo hi Har rho Hrho (real_vec L) Pl Kc) as (B & HB & S1 & S2).
  - eapply along_mono; [|exact T1]. intros x y Hxy. exact (proj1 Hxy).
  - eapply default_mono; [|exact T2]. intros x y Hxy. exact (proj1 Hxy).
  - exists B. split; [exact HB|]. cbv zeta. split; [exact S1|exact S2].
Qed.
End Final.

(** * Which sampling objects exist *)
Section Exist.
Variables (u eta : R) (rd : R -> R) (pw : R -> Z -> R) (compute : kern -> option R -> res sve_result) (b : basis) (old : bool) (F : flib) (model : nat -> Z -> C).
Hypothesis Hb : built_rd u eta rd pw compute b.
Let sb := sb_of_basis_rd old rd F model b.

Lemma tau_sampling_outcome svd pts :
  (Forall (fun t => gxmin (vgeom (bu b)) <= t <= gxmax (vgeom (bu b))) pts -> exists s, tau_sampling svd sb pts = Ok s) /\
  (~ Forall (fun t => gxmin (vgeom (bu b)) <= t <= gxmax (vgeom (bu b))) pts -> tau_sampling svd sb pts = Raise ValueError).
Proof.
  destruct (built_rd_inv u eta rd pw compute b Hb) as (q & e & ms & lam & f & Pb & Pw & Ex & Hn & _ & _ & Eu & _).
  destruct Ex as ((Gn & _ & _ & _ & Po & Eo) & _). destruct Gn as (Ns & _).
  assert (En : gnseg (vgeom (bu b)) = gnseg (vgeom (su (bsve b))) /\ glen (vgeom (bu b)) = glen (vgeom (su (bsve b)))) by (rewrite Eu; split; reflexivity).
  assert (Fa : forallb (in_range (vgeom (bu b))) pts = true <-> Forall (fun t => gxmin (vgeom (bu b)) <= t <= gxmax (vgeom (bu b))) pts).
  { rewrite forallb_forall, Forall_forall. unfold in_range. split; intros H t Ht; specialize (H t Ht).
    - apply andb_true_iff in H as (A1 & A2). apply Rleb_true in A1. apply Rleb_true in A2. lra.
    - apply andb_true_iff. split; apply Rleb_true; lra. }
  unfold tau_sampling. cbn [sb sb_of_basis_rd sb_u]. unfold vcall_arr_rd. split; intros H.
  - pose proof (proj2 Fa H) as G. rewrite G. cbn [negb]. assert (C : exists ix, collect (map (split_rd rd (vgeom (bu b))) pts) = Ok ix).
    { rewrite forallb_forall in G. clear -G En Ns. induction pts as [|t l IH]; [exists []; reflexivity|]. destruct IH as (ix & E); [intros x Hx; apply G; right; exact Hx|].
      cbn [map collect]. unfold split_rd at 1. rewrite (G t (or_introl eq_refl)). cbn [negb]. destruct (gnseg (vgeom (bu b))); [lia|]. cbn [bind]. rewrite E. cbn [bind]. eauto. }
    destruct C as (ix & ->). cbn [bind]. destruct (glen (vgeom (bu b))) eqn:Gl; [lia|]. cbn [bind]. unfold decomposed. cbn [bind]. eauto.
  - destruct (forallb (in_range (vgeom (bu b))) pts) eqn:G; [exfalso; apply H, Fa; reflexivity|]. reflexivity.
Qed.

Lemma uhat_outcome ns :
  (Forall (allowed b) ns -> exists M, sb_uhat sb ns = Ok M) /\ (~ Forall (allowed b) ns -> sb_uhat sb ns = Raise ValueError).
Proof.
  destruct (built_rd_inv u eta rd pw compute b Hb) as (q & e & ms & lam & f & Pb & Pw & Ex & Hn & _ & _ & Eu & _ & _ & _ & _ & _ & Eq & F1 & F2).
  destruct Ex as ((Gn & _ & _ & _ & Po & Eo) & _). destruct Gn as (Ns & _).
  destruct (ft_slice_some _ _ _ _ (Z.of_nat (length (bs b))) F1) as (f' & E' & Eg & _ & Eq' & _). rewrite E' in F2. injection F2 as F2. subst f'.
  assert (A : forall n, allowed b n <-> freq_ok (ffreq (buhat b)) n).
  { intros n. unfold allowed, stat_freq. rewrite Eq'. pose proof (Zmod_even n) as Zm. unfold even_odd in Eq. destruct (String.eqb_spec (bstat b) "F").
    - destruct (string_dec (bstat b) "F"); [|congruence]. injection Eq as <-. cbn [zeta freq_ok]. destruct (Z.even n); split; intros K; try lia; try discriminate; reflexivity.
    - destruct (String.eqb_spec (bstat b) "B"); [|discriminate]. destruct (string_dec (bstat b) "F"); [congruence|]. injection Eq as <-. cbn [zeta freq_ok]. destruct (Z.even n); split; intros K; try lia; try discriminate; reflexivity. }
  cbn [sb sb_of_basis_rd sb_uhat]. assert (G1 : (0 < gorder (fgeom (buhat b)))%nat /\ (0 < gnseg (fgeom (buhat b)))%nat /\ glen (fgeom (buhat b)) = gorder (fgeom (buhat b))) by (rewrite Eg; cbn; auto).
  destruct G1 as (G1 & G2 & G3). split; intros H.
  - eexists. apply FTRoundProps.call_rd_ok; auto. eapply Forall_impl; [|exact H]. intros n. apply A.
  - apply FTRoundProps.call_rd_freq. intros K. apply H. eapply Forall_impl; [|exact K]. intros n. apply A.
Qed.

Lemma mats_sampling_outcome svd ns :
  (Forall (allowed b) ns -> exists s, matsubara_sampling svd sb ns false = Ok s) /\
  (~ Forall (allowed b) ns -> forall pos, matsubara_sampling svd sb ns pos = Raise ValueError).
Proof.
  destruct (uhat_outcome ns) as (U1 & U2). unfold matsubara_sampling. split; intros H.
  - destruct (U1 H) as (M & ->). cbn [bind]. unfold decomposed. cbn [bind]. eauto.
  - intros pos. rewrite (U2 H). reflexivity.
Qed.
End Exist.

(** * Without rounding *)
Lemma sampling_exact old b : let sb := sb_of_basis_rd old (fun t => t) exact_library (fun l n => giw (ft_moments (buhat b) l) n) b in
  (forall xs, sb_u sb xs = sb_u (sb_of_basis b) xs) /\ (forall ns, sb_uhat sb ns = sb_uhat (sb_of_basis b) ns) /\ sb_well sb = sb_well (sb_of_basis b).
Proof.
  cbv zeta. cbn [sb_of_basis_rd sb_of_basis sb_u sb_uhat sb_well]. split; [|split; [|reflexivity]].
  - intros xs. destruct (PolyRound.exact_arithmetic old) as (_ & _ & _ & E & _). rewrite E. reflexivity.
  - intros ns. apply FTRoundProps.call_exact.
Qed.
