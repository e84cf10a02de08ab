(** A concrete case of expansions made from rounded matrices (C90). *)
From Coq Require Import String ZArith Bool Reals Lra Lia Arith.
From Coquelicot Require Import Coquelicot.
From Coq Require Import List Sorting.Sorted.
From Verif.Model Require Import Base Util IEEE Num Gauss Poly SVE Basis Kernel KernelIEEE GaussIEEE Compute Whole.
From Verif.Spec Require Import SGauss SBasis SFT SSVE SCompute SKernel SSingular SWhole SNear SKernelIEEE SGaussIEEE SRounded.
From Verif.Proofs Require Import BaseFacts SumFacts KernelFacts KernelProps KernelSegs GaussFacts ComputeNodes ComputeFull ComputeCase NearBest
  KernelRound KernelRoundCall GaussRound GaussRoundRule MatrixRound MatrixRoundMore SegmentGaps RoundedSVE.
Import ListNotations.
Open Scope R_scope.
Notation length := List.length.

Lemma case_arithmetic : arithmetic (/ 2 ^ 53) eta64 (/ 2 ^ 53) rnd64 tfun64.
Proof. split; [apply small64|]. split; [exact rounding_double|exact tfun64_near]. Qed.
Lemma case_reference : reference (/ 2 ^ 53) 1 gauss1 gauss1 0 0 0 2.
Proof.
  destruct small64 as (S1 & _ & S3). assert (T : / 10 ^ 10 <= / 100000) by (apply Rinv_le_contravar; lra).
  split; [exact gauss1_ordinary|]. split; [exact (rule_near_refl 1 gauss1 gauss1_ordinary)|]. split; [exact S1|]. set (u := / 2 ^ 53) in *. clearbody u.
  split; [lra|]. split; [lra|]. intros j Hj. assert (j = 0)%nat as -> by lia. unfold gauss1. cbn [nth rx]. lra.
Qed.
Lemma case_cutoff : usual_cutoff caseK.
Proof.
  unfold usual_cutoff, caseK. cbn [k_lambda]. split.
  - apply Rle_trans with (/ 1); [apply Rinv_le_contravar; [lra|apply pow_R1_Rle; lra]|lra].
  - apply pow_R1_Rle. lra.
Qed.
Lemma case_z : exists z, -1 < z < 0 /\ -9 / 10 < z < - / 10 /\ segments_y caseK = [-1; z; 0; - z; 1] /\ half (segments_y caseK) = [0; - z; 1].
Proof.
  unfold segments_y, diffs_y, caseK. rewrite nzeros1 by lia. change (Z.to_nat 2) with 2%nat.
  cbn [Nat.ltb Nat.leb]. unfold leading_diffs. cbn [map firstn List.length seq skipn app].
  unfold segments_y_of, cumsum, cumsum_from. cbn [map last removelast rev app].
  set (z := (0 + 1523 / 100000) / (0 + 1523 / 100000 + 3314 / 100000) - 1).
  assert (Hz : -1 < z < 0 /\ -9 / 10 < z < - / 10) by (unfold z; replace ((0 + 1523 / 100000) / (0 + 1523 / 100000 + 3314 / 100000)) with (1523 / 4837) by field; lra).
  exists z. split; [apply Hz|]. split; [apply Hz|]. split; [reflexivity|]. unfold half. cbn [filter].
  rewrite (proj2 (BaseFacts.Rleb_false 0 (-1))) by lra. rewrite (proj2 (BaseFacts.Rleb_false 0 z)) by lra. rewrite !(proj2 (BaseFacts.Rleb_true _ _)) by lra. reflexivity.
Qed.
Lemma seen_x : exists G, piecewise gauss1 (segments_x caseK) = Ok G /\ Forall (fun x => -99 / 100 <= x <= 99 / 100) (rx G).
Proof. rewrite case_full_x. eexists. split; [exact piecewise_full|]. cbn [rx]. repeat constructor; lra. Qed.
Lemma any_rule l : edges_ok l -> exists G, piecewise gauss1 l = Ok G /\ rx G = concat (map rx (map2 (reseat gauss1) (init l) (tl l))).
Proof.
  intros H. destruct (proj1 (piecewise_spec gauss1 l)) as (G & E & _).
  - destruct H as (_ & S). clear - S. induction l as [|a [|b l] IH]; cbn; auto. inversion S as [|? ? S' F]; subst. split; [inversion F; auto|]. apply IH, S'.
  - exists G. split; auto. apply (ComputeNodes.pieces gauss1 l G H E).
Qed.
Lemma seen_y : exists G, piecewise gauss1 (segments_y caseK) = Ok G /\ Forall (fun x => -99 / 100 <= x <= 99 / 100) (rx G).
Proof.
  destruct case_z as (z & H1 & H2 & -> & _). destruct (any_rule [-1; z; 0; - z; 1]) as (G & HG & E); [split; [cbn; lia|repeat constructor; lra]|]. exists G. split; auto. rewrite E.
  unfold init, reseat, gauss1. cbn [removelast tl map2 map concat app rule_init rx ra rb]. repeat (apply Forall_cons; [lra|]). apply Forall_nil.
Qed.
Lemma seen_half_x : exists G, piecewise gauss1 (half (segments_x caseK)) = Ok G /\ Forall (fun x => 1 / 100 <= x <= 99 / 100) (rx G).
Proof.
  rewrite case_half_x. destruct (any_rule [0; 1]) as (G & HG & E); [split; [cbn; lia|repeat constructor; lra]|]. exists G. split; auto. rewrite E.
  unfold init, reseat, gauss1. cbn [removelast tl map2 map concat app rule_init rx ra rb]. repeat (apply Forall_cons; [lra|]). apply Forall_nil.
Qed.
Lemma seen_half_y : exists G, piecewise gauss1 (half (segments_y caseK)) = Ok G /\ Forall (fun x => 1 / 100 <= x <= 99 / 100) (rx G).
Proof.
  destruct case_z as (z & H1 & H2 & _ & ->). destruct (any_rule [0; - z; 1]) as (G & HG & E); [split; [cbn; lia|repeat constructor; lra]|]. exists G. split; auto. rewrite E.
  unfold init, reseat, gauss1. cbn [removelast tl map2 map concat app rule_init rx ra rb]. repeat (apply Forall_cons; [lra|]). apply Forall_nil.
Qed.
Lemma case_full_matrix : exists M, sampling_matrix_rd rnd64 (kernel_matrix_rd rnd64 tfun64 caseK) gauss1 (segments_x caseK) (segments_y caseK) = Ok M.
Proof.
  destruct seen_x as (GX & HX & FX). destruct seen_y as (GY & HY & FY). destruct case_reference as (Hq & Hr & Hm & _). destruct case_arithmetic as (Hs & Hrd & _).
  destruct (usual_ordinary _ case_cutoff) as (_ & Hl). destruct (hinted_edges caseK _ Hl (or_introl eq_refl)) as (Ex & _). destruct (hinted_edges caseK _ Hl (or_intror eq_refl)) as (Ey & _).
  destruct small64 as (_ & _ & S3). assert (T : / 10 ^ 10 <= / 100000) by (apply Rinv_le_contravar; lra).
  apply (returns_matrix _ eta64 _ rnd64 tfun64 Hs Hrd 1 gauss1 gauss1 0 0 0 _ _ GX GY caseK Hq Hr Hm Ex Ey HX HY). clear Hs Hrd Hr Hm. set (u := / 2 ^ 53) in *. clearbody u.
  apply Forall_app. split; [revert FX|revert FY]; apply Forall_impl; intros x Hx; lra.
Qed.
Lemma case_half_matrix red : exists M, sampling_matrix_rd rnd64 (reduced_matrix_rd rnd64 tfun64 red) gauss1 (half (segments_x caseK)) (half (segments_y caseK)) = Ok M.
Proof.
  destruct seen_half_x as (GX & HX & FX). destruct seen_half_y as (GY & HY & FY). destruct case_reference as (Hq & Hr & Hm & _). destruct case_arithmetic as (Hs & Hrd & _).
  destruct (usual_ordinary _ case_cutoff) as (_ & Hl). destruct (hinted_edges caseK _ Hl (or_introl eq_refl)) as (_ & Ex). destruct (hinted_edges caseK _ Hl (or_intror eq_refl)) as (_ & Ey).
  destruct small64 as (_ & _ & S3). assert (T : / 10 ^ 10 <= / 100000) by (apply Rinv_le_contravar; lra).
  apply (returns_reduced _ eta64 _ rnd64 tfun64 Hs Hrd 1 gauss1 gauss1 0 0 0 _ _ GX GY red Hq Hr Hm Ex Ey HX HY). clear Hs Hrd Hr Hm. set (u := / 2 ^ 53) in *. clearbody u.
  apply Forall_app. split; [revert FX|revert FY]; apply Forall_impl; intros x Hx; lra.
Qed.

Lemma shift_back m n A M b c : 0 <= c -> sumn m (fun i => sumn n (fun j => Rsqr (ment A i j - ment M i j))) <= Rsqr c -> near_svd m n A b 0 -> near_svd m n M b c.
Proof.
  intros Hc H Hn. replace c with (0 + c) by ring. apply (near_svd_shift m n M A b 0 c Hc); auto. eapply Rle_trans; [right|exact H].
  apply sumn_ext. intros i _. apply sumn_ext. intros j _. rewrite (Rsqr_neg_minus). reflexivity.
Qed.
Lemma shape_ordered (b : usv) : (let '(us, s, vs) := b in length us = length s /\ length vs = length s /\ s <> [] /\ nonincreasing s /\ Forall (fun x => 0 <= x) s) -> ordered b.
Proof. destruct b as [[us s] vs]. intros (_ & _ & _ & A & B). split; auto. Qed.

Lemma case_rounded :
  let c := full_error (/ 2 ^ 53) (/ 2 ^ 53) 0 0 0 2 caseK in
  let h := half_error (/ 2 ^ 53) (/ 2 ^ 53) 0 0 0 2 caseK in
  arithmetic (/ 2 ^ 53) eta64 (/ 2 ^ 53) rnd64 tfun64 /\ reference (/ 2 ^ 53) 1 gauss1 gauss1 0 0 0 2 /\ usual_cutoff caseK /\
  (exists M, sampling_matrix_rd rnd64 (kernel_matrix_rd rnd64 tfun64 caseK) gauss1 (segments_x caseK) (segments_y caseK) = Ok M /\
     forall GX GY alg hint, piecewise gauss1 (segments_x caseK) = Ok GX -> piecewise gauss1 (segments_y caseK) = Ok GY ->
     near_svd (length (rx GX)) (length (rx GY)) M (pair_svd alg (weighted casek GX GY) hint) c) /\
  (exists Ke Ko Me Mo, get_symmetrized caseK 1 = Ok Ke /\ get_symmetrized caseK (-1) = Ok Ko /\
     sampling_matrix_rd rnd64 (reduced_matrix_rd rnd64 tfun64 Ke) gauss1 (half (segments_x caseK)) (half (segments_y caseK)) = Ok Me /\
     sampling_matrix_rd rnd64 (reduced_matrix_rd rnd64 tfun64 Ko) gauss1 (half (segments_x caseK)) (half (segments_y caseK)) = Ok Mo /\
     forall gx gy alg hint, piecewise gauss1 (half (segments_x caseK)) = Ok gx -> piecewise gauss1 (half (segments_y caseK)) = Ok gy ->
     near_svd (length (rx gx)) (length (rx gy)) Me (row_svd alg (weighted (fun x y => casek x y + casek x (- y)) gx gy) hint) h /\
     near_svd (length (rx gx)) (length (rx gy)) Mo (row_svd alg (weighted (fun x y => casek x y - casek x (- y)) gx gy) hint) h) /\
  forall have_xprec have_gejsv dd,
  (exists r, case_sample have_xprec have_gejsv dd = Ok (Some r)) /\ (exists r, case_compute have_xprec have_gejsv dd = Ok (Some r)).
Proof.
  cbv zeta. pose proof case_arithmetic as Ha. pose proof case_reference as Hr. pose proof case_cutoff as HK. split; [exact Ha|]. split; [exact Hr|]. split; [exact HK|]. split; [|split].
  - destruct case_full_matrix as (M & HM). exists M. split; [exact HM|]. intros GX GY alg hint HX HY.
    pose proof (proj1 (case_svd_full Float64 1 gauss1 GX GY alg hint eq_refl HX HY)) as E. cbv zeta in E.
    apply (shift_back _ _ (weighted casek GX GY)).
    + exact (full_error_pos _ eta64 _ rnd64 tfun64 1 gauss1 gauss1 0 0 0 2 caseK Ha Hr HK).
    + exact (full_close _ eta64 _ rnd64 tfun64 1 gauss1 gauss1 0 0 0 2 caseK GX GY M Ha Hr HK HX HY HM casef casek casef_ok casek_value).
    + apply exact_near; [exact E|]. apply shape_ordered. apply pair_svd_shape.
  - assert (S : forall s, s = 1 \/ s = -1 -> exists red, get_symmetrized caseK s = Ok red).
    { intros s Hs. unfold get_symmetrized, reduced_init, caseK. assert (E : Reqb (Rabs s) 1 = true) by (unfold Reqb; destruct (Req_EM_T (Rabs s) 1) as [|X]; auto; exfalso; apply X; destruct Hs as [->| ->]; [apply Rabs_R1|rewrite Rabs_left; lra]).
      destruct (Reqb s (-1)); rewrite ?E; eauto. }
    destruct (S 1 (or_introl eq_refl)) as (Ke & HKe). destruct (S (-1) (or_intror eq_refl)) as (Ko & HKo).
    destruct (case_half_matrix Ke) as (Me & HMe). destruct (case_half_matrix Ko) as (Mo & HMo). exists Ke, Ko, Me, Mo. do 4 (split; [assumption|]). intros gx gy alg hint HX HY.
    destruct (case_svd Float64 1 gauss1 gx gy alg hint eq_refl HX HY) as (E1 & E2). cbv zeta in E1, E2. split.
    + apply (shift_back _ _ (weighted (fun x y => casek x y + casek x (- y)) gx gy)).
      * exact (half_error_pos _ eta64 _ rnd64 tfun64 1 gauss1 gauss1 0 0 0 2 caseK Ha Hr HK).
      * rewrite (weighted_ext _ (fun x y => casek x y + 1 * casek x (- y))) by (intros; ring).
        exact (half_close _ eta64 _ rnd64 tfun64 1 gauss1 gauss1 0 0 0 2 caseK gx gy 1 Ke Me Ha Hr HK HX HY (or_introl eq_refl) HKe HMe casef casek casef_ok casek_value).
      * apply exact_near; [exact E1|]. apply shape_ordered. apply row_svd_shape.
    + apply (shift_back _ _ (weighted (fun x y => casek x y - casek x (- y)) gx gy)).
      * exact (half_error_pos _ eta64 _ rnd64 tfun64 1 gauss1 gauss1 0 0 0 2 caseK Ha Hr HK).
      * rewrite (weighted_ext (fun x y => casek x y - casek x (- y)) (fun x y => casek x y + -1 * casek x (- y))) by (intros; ring).
        exact (half_close _ eta64 _ rnd64 tfun64 1 gauss1 gauss1 0 0 0 2 caseK gx gy (-1) Ko Mo Ha Hr HK HX HY (or_intror eq_refl) HKo HMo casef casek casef_ok casek_value).
      * apply exact_near; [exact E2|]. apply shape_ordered. apply row_svd_shape.
  - intros hx hg dd. split; [apply case_sample_returns|apply case_returns].
Qed.
