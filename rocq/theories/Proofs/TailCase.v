(** A set of two polynomials whose high-frequency model is computed in doubles. *)
From Coq Require Import Reals ZArith Arith Bool Lra Lia Psatz.
From Coquelicot Require Import Coquelicot.
From Flocq Require Import Core.
From Coq Require Import List.
From Verif.Model Require Import Base Num IEEE Poly FT PolyIEEE FTIEEE DefaultsIEEE TailIEEE SVE Basis BasisIEEE.
From Verif.Spec Require Import SPoly SFT SKernelIEEE SPolyIEEE SFTIEEE SSVEIEEE SBasisIEEE STailIEEE.
From Verif.Proofs Require Import SumFacts LegFacts PPolyFacts PolyRound KernelRoundCall FTRoundProps BasisRoundProps BasisRoundDouble MatsRoundBasis OpsRoundMore PPolyExamples SVEPolicy BasisRound FTProps TransformRoundCase DefaultsCase TailGiw TailCoef TailProps TailMore.
Import ListNotations.
Open Scope R_scope.
Arguments legP : simpl never.

(** 4 |x| - 1 and 4 x -/+ 1, up to the factor sqrt 2. *)
Definition wedge_col : col := Col (fun p i => match p with O => 1 | _ => match i with O => -2 | _ => 2 end end) 1.
Definition tail_ft : ft := FT two_geom [wedge_col; two_col] FOdd (Some 100) None.

Lemma K0 : knot two_geom 0 = -1. Proof. reflexivity. Qed.
Lemma K1 : knot two_geom 1 = 0. Proof. reflexivity. Qed.
Lemma K2 : knot two_geom 2 = 1. Proof. reflexivity. Qed.
Lemma two_ideal : ideal_geom two_geom = two_geom.
Proof. unfold ideal_geom, two_geom; cbn; do 2 f_equal; [ring|f_equal; ring]. Qed.

Lemma two_left c x : -1 < x < 0 -> cval two_geom c x = sqrt 2 * (cdat c 0 0 + cdat c 1 0 * (2 * x + 1)).
Proof.
  intros Hx. rewrite (cval_seg _ two_ok c 0 x); [|cbn; lia|rewrite K0; lra|left; rewrite K1; lra]. unfold seg_fun. rewrite K0, K1. cbn [two_geom glen sumn]. rewrite legP_0, legP_1.
  replace (2 / (0 - -1)) with 2 by field. f_equal. field.
Qed.
Lemma two_right c x : 0 < x < 1 -> cval two_geom c x = sqrt 2 * (cdat c 0 1 + cdat c 1 1 * (2 * x - 1)).
Proof.
  intros Hx. rewrite (cval_seg _ two_ok c 1 x); [|cbn; lia|rewrite K1; lra|left; rewrite K2; lra]. unfold seg_fun. rewrite K1, K2. cbn [two_geom glen sumn]. rewrite legP_0, legP_1.
  replace (2 / (1 - 0)) with 2 by field. f_equal. field.
Qed.
Lemma two_parity c s : s * s = 1 -> cdat c 0 0 = s * cdat c 0 1 -> cdat c 1 0 = - s * cdat c 1 1 -> has_parity (ideal_geom two_geom) c s.
Proof.
  intros Hs A B. rewrite two_ideal. split.
  - intros i Hi. cbn in Hi. destruct i as [|[|[|]]]; [| | |lia]; cbn [two_geom gnseg Nat.sub]; fold two_geom; rewrite ?K0, ?K1, ?K2; ring.
  - intros i x Hi Hx. cbn in Hi. destruct i as [|[|]]; [| |lia]; rewrite ?K0, ?K1, ?K2 in Hx.
    + rewrite (two_right c (- x)), (two_left c x) by lra. rewrite A, B. transitivity (s * s * (sqrt 2 * (cdat c 0 1 + cdat c 1 1 * (2 * - x - 1)))); [rewrite Hs; ring|ring].
    + rewrite (two_left c (- x)), (two_right c x) by lra. rewrite A, B. ring.
Qed.

Lemma double_eta : 1000000 * eta64 <= / 2 ^ 53 /\ 0 <= eta64.
Proof.
  destruct (small_double 0 ltac:(lra)) as (_ & _ & E0 & E1). split; [|exact E0].
  eapply Rle_trans; [|exact E1]. rewrite Rmult_comm. apply Rmult_le_compat_l; [exact E0|].
  match goal with |- _ <= ?b ^ ?k => apply Rle_trans with (b ^ 6); [lra|apply Rle_pow; [lra|lia]] end.
Qed.

Lemma tail_good : good_end (/ 2 ^ 53) eta64 two_geom.
Proof.
  destruct double_eta as (E1 & E0). assert (P53 : 2 ^ 53 = 9007199254740992) by (cbn; lra).
  split. { apply geom_ok_near; [left; apply Rinv_0_lt_compat, pow_lt; lra|exact E0|apply two_ok]. }
  split; [reflexivity|]. split; [cbn; lia|]. split; [reflexivity|]. cbn [two_geom glen gnseg Nat.sub]. fold two_geom. split; [cbn [INR]; rewrite P53; lra|].
  split.
  - unfold fair_length. rewrite K1, K2. revert E0 E1. rewrite P53. generalize eta64. intros e E0 E1. lra.
  - unfold loss. rewrite K1, K2, Rabs_R0, Rabs_R1, Rmax_right by lra. cbn [two_geom glen INR]. rewrite P53. lra.
Qed.

Lemma tail_size c : last_sum two_geom c = 3 -> tail_error (/ 2 ^ 53) eta64 two_geom c 101 <= / 10 ^ 12.
Proof.
  intros HS. destruct double_eta as (E1 & E0). assert (P53 : 2 ^ 53 = 9007199254740992) by (cbn; lra).
  assert (EG : deriv_gain two_geom = 8). { unfold deriv_gain. cbn [two_geom glen gnseg Nat.sub]. fold two_geom. rewrite K1, K2. cbn [INR]. field. }
  assert (EL : loss two_geom (gnseg two_geom - 1) = 2640). { cbn [two_geom gnseg Nat.sub]. fold two_geom. unfold loss. rewrite K1, K2, Rabs_R0, Rabs_R1, Rmax_right by lra. cbn [two_geom glen INR]. field. }
  assert (ELen : knot two_geom (S (gnseg two_geom - 1)) - knot two_geom (gnseg two_geom - 1) = 1). { cbn [two_geom gnseg Nat.sub]. fold two_geom. rewrite K1, K2. ring. }
  assert (EN : INR (glen two_geom) = 2) by (cbn; ring).
  set (u := / 2 ^ 53) in *. assert (U : 0 < u <= / 1000000000000000) by (unfold u; rewrite P53; lra). revert E0 E1. generalize eta64. intros e E0 E1.
  assert (Eu : 0 <= e / u <= / 1000000). { split; [apply Rmult_le_pos; [lra|apply Rlt_le, Rinv_0_lt_compat; lra]|]. apply Rmult_le_reg_r with u; [lra|]. unfold Rdiv. rewrite Rmult_assoc, Rinv_l by lra. lra. }
  set (r := e / u) in *. pose proof sqrt2_le as S2.
  assert (C1 : coef_error u e two_geom c 1 = 8 * 0 + 8 * (2 * 2 * 2) * u * 2 * (1 * 3 + 0 + r) + 2 * e).
  { cbn [coef_error]. cbv zeta. rewrite ELen, EN, EG, HS. cbn [pow]. fold r. field. }
  assert (B0 : deriv_bound two_geom c 0 = sqrt 2 * 3). { unfold deriv_bound. cbv zeta. rewrite ELen, EG, HS. replace (2 / 1) with 2 by field. cbn [pow]. ring. }
  assert (B1 : deriv_bound two_geom c 1 = sqrt 2 * 24). { unfold deriv_bound. cbv zeta. rewrite ELen, EG, HS. replace (2 / 1) with 2 by field. cbn [pow]. ring. }
  assert (D0 : 0 <= end_error u e two_geom c 0 <= 11300 * u).
  { unfold end_error. cbv zeta. rewrite EL, ELen, EG, HS. replace (2 / 1) with 2 by field. cbn [pow coef_error]. fold r.
    assert (X : 0 <= sqrt 2 * (1 * 3 + 0 + r) <= 1415 / 1000 * (3001 / 1000)) by (split; [apply Rmult_le_pos; lra|apply Rmult_le_compat; lra]).
    replace (2640 * u * sqrt 2 * (1 * 3 + 0 + r)) with (2640 * u * (sqrt 2 * (1 * 3 + 0 + r))) by ring. set (x := sqrt 2 * (1 * 3 + 0 + r)) in *. rewrite Rmult_0_r.
    assert (0 <= u * x <= u * (1415 / 1000 * (3001 / 1000))) by (split; [apply Rmult_le_pos; lra|apply Rmult_le_compat_l; lra]). lra. }
  assert (C1' : 0 <= coef_error u e two_geom c 1 <= 400 * u) by (rewrite C1; nra).
  assert (D1 : 0 <= end_error u e two_geom c 1 <= 100000 * u).
  { unfold end_error. cbv zeta. rewrite EL, ELen, EG, HS. replace (2 / 1) with 2 by field. cbn [pow]. fold r. set (x := coef_error u e two_geom c 1) in *.
    assert (0 <= sqrt 2 * x <= 1415 / 1000 * (400 * u)) by (split; [apply Rmult_le_pos; lra|apply Rmult_le_compat; lra]).
    assert (X : 0 <= sqrt 2 * (8 * 1 * 3 + x + r) <= 1415 / 1000 * (241 / 10)) by (split; [apply Rmult_le_pos; lra|apply Rmult_le_compat; lra]).
    replace (2640 * u * sqrt 2 * (8 * 1 * 3 + x + r)) with (2640 * u * (sqrt 2 * (8 * 1 * 3 + x + r))) by ring. set (y := sqrt 2 * (8 * 1 * 3 + x + r)) in *.
    assert (0 <= u * y <= u * (1415 / 1000 * (241 / 10))) by (split; [apply Rmult_le_pos; lra|apply Rmult_le_compat_l; lra]). lra. }
  assert (M0 : 0 <= moment_error u e two_geom c 0 <= 18000 * u). { unfold moment_error. rewrite B0. nra. }
  assert (M1 : 0 <= moment_error u e two_geom c 1 <= 160000 * u). { unfold moment_error. rewrite B1. nra. }
  unfold tail_error. cbn [two_geom gorder sumn]. fold two_geom. rewrite B0, B1. cbn [INR]. rewrite (Rabs_pos_eq 101) by lra.
  assert (Q : 0 <= (1 + 20 * u) * (2 / (PI * 101)) <= / 100).
  { pose proof PI2_3_2 as P3. unfold PI2 in P3. assert (I : 0 <= 2 / (PI * 101) <= 2 / 303). { split; [apply Rmult_le_pos; [lra|apply Rlt_le, Rinv_0_lt_compat; lra]|]. unfold Rdiv. apply Rmult_le_compat_l; [lra|]. apply Rinv_le_contravar; lra. } nra. }
  set (q := (1 + 20 * u) * _) in *. cbn [pow].
  assert (T0 : 0 <= moment_error u e two_geom c 0 + 11 * (0 + 1) * u * (3 / 2 * (sqrt 2 * 3)) <= 19000 * u) by nra.
  assert (T1 : 0 <= moment_error u e two_geom c 1 + 11 * (1 + 1) * u * (3 / 2 * (sqrt 2 * 24)) <= 162000 * u) by nra.
  set (t0 := _ + 11 * (0 + 1) * u * _) in *. set (t1 := _ + 11 * (1 + 1) * u * _) in *.
  assert (q * 1 * t0 <= / 100 * (19000 * u)) by (rewrite Rmult_1_r; apply Rmult_le_compat; lra).
  assert (Q2 : 0 <= q * (q * 1) <= / 10000) by nra.
  assert (q * (q * 1) * t1 <= / 10000 * (162000 * u)) by (apply Rmult_le_compat; lra).
  replace (10 ^ 12) with 1000000000000 by (cbn; ring). lra.
Qed.

Lemma tail_case old : good_end (/ 2 ^ 53) eta64 two_geom /\ functions_near 2 (/ 2 ^ 53) (2 * / 2 ^ 53) (2 * / 2 ^ 53) double_library /\
  has_parity (ideal_geom two_geom) wedge_col ((-1) ^ 0) /\ has_parity (ideal_geom two_geom) two_col ((-1) ^ 1) /\
  exists ms M, power_model_rd old rnd64 FOdd (VPoly two_geom [wedge_col; two_col]) = Ok ms /\
    ft_call_rd rnd64 double_library (tail_rd rnd64 double_library ms) tail_ft [3; 99; 101]%Z = Ok M /\
  forall l c, nth_error [wedge_col; two_col] l = Some c -> exists v w, entry M l 2 = Some v /\
    is_fourier (fun x => PI * 101 * (x + 1) / 2) (cval two_geom c) (-1) 1 (Cmult (RtoC (sqrt 2)) w) /\
    Cmod (Cminus (Cplus v (Cdiv (jump_tail two_geom c 101) (RtoC (sqrt 2)))) w) <= / 10 ^ 12.
Proof.
  pose proof tail_good as HG. pose proof (double_functions 2) as HF. destruct double_eta as (E1 & E0). assert (P53 : 2 ^ 53 = 9007199254740992) by (cbn; lra).
  assert (U : 0 < / 2 ^ 53 <= / 10000) by (rewrite P53; lra).
  assert (P0 : has_parity (ideal_geom two_geom) wedge_col ((-1) ^ 0)) by (apply two_parity; cbn; ring).
  assert (P1 : has_parity (ideal_geom two_geom) two_col ((-1) ^ 1)) by (apply two_parity; cbn; ring).
  split; [exact HG|]. split; [exact HF|]. split; [exact P0|]. split; [exact P1|].
  destruct (good_model (/ 2 ^ 53) eta64 rnd64 old rounding_double U E0 two_geom [wedge_col; two_col] FOdd HG ltac:(discriminate)) as (ms & Em & _).
  exists ms, (rd_rows rnd64 double_library (tail_rd rnd64 double_library ms) tail_ft [3; 99; 101]%Z).
  assert (HM : ft_call_rd rnd64 double_library (tail_rd rnd64 double_library ms) tail_ft [3; 99; 101]%Z = Ok (rd_rows rnd64 double_library (tail_rd rnd64 double_library ms) tail_ft [3; 99; 101]%Z)).
  { apply call_rd_ok; cbn; auto. repeat constructor. }
  split; [exact Em|]. split; [exact HM|]. intros l c El.
  assert (HL : last_sum two_geom c = 3 /\ has_parity (ideal_geom two_geom) c ((-1) ^ l)).
  { destruct l as [|[|l]]; [| |destruct l; discriminate]; injection El as <-; (split; [|assumption]); unfold last_sum; cbn; rewrite ?Rabs_R1, (Rabs_pos_eq 2) by lra; ring. }
  destruct HL as (HL & Hpar).
  destruct (call_integral (/ 2 ^ 53) eta64 rnd64 old rounding_double U E0 double_library tail_ft [wedge_col; two_col] ms [3; 99; 101]%Z _ l c c 2 101%Z 100 HG eq_refl (proj1 HF) Em El El HM eq_refl eq_refl) as (v & w & A & B & C).
  - rewrite Rabs_pos_eq; lra.
  - discriminate.
  - rewrite Rabs_pos_eq by lra. revert E0 E1. rewrite P53. generalize eta64. intros e E0 E1. lra.
  - exact Hpar.
  - exists v, w. split; [exact A|]. split; [rewrite <- two_ideal; exact B|]. eapply Rle_trans; [exact C|]. apply tail_size. exact HL.
Qed.

Lemma ex_tail compute old : exists b lam ms M v, built_rd (/ 2 ^ 53) eta64 rnd64 powerRZ compute b /\ klam (bkernel b) = Some lam /\
  power_model_rd old rnd64 (ffreq (buhat_full b)) (VPoly (fgeom (buhat_full b)) (fcols (buhat_full b))) = Ok ms /\
  ft_call_rd rnd64 double_library (tail_rd rnd64 double_library ms) (buhat b) [1; 501]%Z = Ok M /\
  rnd64 (40 * lam) <= Rabs (IZR 501) /\ entry M 1 1 = Some v /\
  let g := vgeom (su (bsve b)) in let c := Col (fun k i => rnd64 (rnd64 (sqrt (bbeta b)) * cdat line_col k i)) (csym line_col) in
  good_end (/ 2 ^ 53) eta64 g /\ Cmod (Cminus v (true_tail FOdd g c 1 501)) <= tail_error (/ 2 ^ 53) eta64 g c 501.
Proof.
  destruct (ex_wide compute) as (b & H & Hb & Er & Eb & Ew & Sz & Kl). destruct double_eta as (E1 & E0). assert (P53 : 2 ^ 53 = 9007199254740992) by (cbn; lra).
  assert (U : 0 < / 2 ^ 53 <= / 10000) by (rewrite P53; lra).
  destruct (full_rd_shape _ _ _ _ _ _ Hb) as (Q & _ & _ & _ & Eg & _ & _).
  destruct (full_rd_facts _ _ _ _ _ _ Hb) as (lam' & _ & _ & ((G & Gm & GM & Gf & Go & Gl) & _) & _).
  assert (Lo : loss (vgeom (su (bsve b))) (gnseg (vgeom (su (bsve b))) - 1) * / 2 ^ 53 <= 1) by (rewrite Er; apply (unit_accurate 0%nat); cbn; lia).
  assert (Nu : INR (glen (vgeom (su (bsve b)))) * / 2 ^ 53 <= / 200) by (rewrite Er; cbn [ex_sve su ex_poly vgeom unit_geom glen]; replace (INR 3) with 3 by (cbn; lra); rewrite P53; lra).
  assert (HG : good_end (/ 2 ^ 53) eta64 (vgeom (su (bsve b)))). { repeat (split; [assumption|]). split; [|assumption]. apply Gf. destruct G as (P & _). lia. }
  assert (Ef : ffreq (buhat_full b) = FOdd /\ ffreq (buhat b) = FOdd).
  { destruct (BasisRound.basis_rd_inv (/ 2 ^ 53) eta64 rnd64 powerRZ compute _ _ _ _ _ _ _ _ H) as (k & r & lam & q & e & n & f & f' & _ & _ & _ & _ & _ & _ & _ & _ & _ & Hq & _ & _ & F0 & F1 & E'); [rewrite Er; apply ex_near|].
    cbn in Hq. injection Hq as <-. pose proof (FTCall.ft_init_val _ _ _ _ _ F0) as (_ & _ & Q1 & _). destruct (BasisRound.ft_slice_some _ _ _ _ (Z.of_nat n) F0) as (f2 & E2 & _ & _ & Q2 & _).
    rewrite E' in *. cbn [BasisRound.the_basis_rd buhat_full buhat]. rewrite F1 in E2. injection E2 as <-. auto. }
  destruct Ef as (Ef1 & Ef2).
  destruct (good_model (/ 2 ^ 53) eta64 rnd64 old rounding_double U E0 (fgeom (buhat_full b)) (fcols (buhat_full b)) (ffreq (buhat_full b))) as (ms & Em & _); [rewrite Eg; exact HG|rewrite Ef1; discriminate|].
  exists b, (35 / 4 + / 2 ^ 49), ms.
  assert (T : rnd64 (40 * (35 / 4 + / 2 ^ 49)) <= Rabs (IZR 501)).
  { rewrite (Rabs_pos_eq (IZR 501)) by lra. assert (P49 : 2 ^ 49 = 562949953421312) by (cbn; lra). rewrite P49. destruct rounding_double as (R1 & _). specialize (R1 (40 * (35 / 4 + / 562949953421312))). rewrite P53 in *.
    rewrite (Rabs_pos_eq (40 * _)) in R1 by lra. apply Rabs_le_between in R1. revert E0 E1 R1. generalize eta64. intros e E0 E1 R1. lra. }
  assert (Lf : length (fcols (buhat b)) = 2%nat). { rewrite (proj2 (proj2 (proj2 (rd_sizes _ _ _ _ _ _ Hb)))). exact Sz. }
  assert (Gb : fgeom (buhat b) = vgeom (su (bsve b))).
  { destruct (built_rd_inv _ _ _ _ _ _ Hb) as (q & e & ms' & lam2 & f0 & _ & _ & _ & _ & _ & _ & _ & _ & _ & _ & _ & Hk & Hq & F0 & F1). destruct (BasisRound.ft_slice_some _ _ _ _ (Z.of_nat (length (bs b))) F0) as (f' & E' & X1 & _). rewrite E' in F1. injection F1 as <-. exact X1. }
  set (M := rd_rows rnd64 double_library (tail_rd rnd64 double_library ms) (buhat b) [1; 501]%Z). exists M.
  assert (HM : ft_call_rd rnd64 double_library (tail_rd rnd64 double_library ms) (buhat b) [1; 501]%Z = Ok M).
  { apply call_rd_ok; rewrite ?Gb; auto; [apply G|]. rewrite Ef2. repeat constructor. }
  destruct (basis_tail (/ 2 ^ 53) eta64 rnd64 powerRZ compute b old double_library _ ms (buhat b) [1; 501]%Z M 1 line_col 1 501%Z Hb rounding_double U E0 (proj1 (double_functions 2)) Nu Lo Kl Em (or_intror eq_refl) HM) as (v & Ev & Bv); auto.
  - rewrite Er. reflexivity.
  - lia.
  - discriminate.
  - rewrite Rabs_pos_eq by lra. revert E0 E1. rewrite P53. generalize eta64. intros e E0 E1. lra.
  - exists v. rewrite Ef2 in Bv. repeat (split; [assumption|]). exact Bv.
Qed.
