(** Rescaling in doubles, pairs of bases, and examples (C101). *)
From Coq Require Import String ZArith Arith Bool Reals Lra Lia.
From Flocq Require Import Core.
From Coquelicot Require Import Coquelicot.
From Coq Require Import List Sorting.Sorted.
From Verif.Model Require Import Base Util IEEE Num Poly FT FTIEEE SVE Basis BasisIEEE OpsIEEE.
From Verif.Spec Require Import SPoly SFT SSVE SBasis SKernelIEEE SPolyIEEE SFTIEEE SBasisIEEE SOpsIEEE.
From Verif.Proofs Require Import BaseFacts UtilFacts SumFacts PPolyFacts SVEFacts FTCall FTProps BasisFacts BasisInit BasisOps KernelRoundCall BasisRoundGeom BasisRound BasisRoundProps BasisRoundMore BasisRoundDouble OpsRound.
From Verif.Proofs Require RescaleIEEE PPolyExamples SVEPolicy.
Import ListNotations.
Open Scope R_scope.
Notation length := List.length.

(** * Lambda *)
Lemma lambda_near u eta rd pw compute b lam : rounding u eta rd -> 0 < u <= / 10000 -> 0 <= eta -> built_rd u eta rd pw compute b -> klam (bkernel b) = Some lam ->
  Rabs (lam - lambda_rd rd b) <= (1 + 5 * u) * (4 / 10 ^ 16) * Rabs (lambda_rd rd b) + 4 * eta * (1 + Rabs (lambda_rd rd b)).
Proof.
  intros Hrd Hu He Hb Kl. destruct (built_full u eta rd pw compute Hrd b Hb) as (lam0 & q & f & f' & _ & _ & _ & Hk & _). unfold lambda_rd. set (L := rd (bbeta b * bwmax b)) in *.
  unfold get_kernel_rd in Hk. destruct (negb _); [discriminate|]. rewrite Kl in Hk. destruct (lam_close_rd rd lam L) eqn:C; [|discriminate]. clear Hk. unfold lam_close_rd in C. apply Rleb_true in C.
  assert (P16 : 10 ^ 16 = 10000000000000000) by (cbn; lra). rewrite P16 in *. rewrite Rplus_0_l in C.
  pose proof (proj1 Hrd (lam - L)) as A1. pose proof (proj1 Hrd (4 / 10000000000000000)) as A2. rewrite (Rabs_pos_eq (4 / _)) in A2 by lra. set (t := rd (4 / 10000000000000000)) in *.
  assert (Pt : 0 <= t) by (apply (proj1 (proj2 Hrd)); lra). pose proof (Rabs_pos L) as PL. set (l := Rabs L) in *.
  pose proof (proj1 Hrd (t * l)) as A3. rewrite (Rabs_pos_eq (t * l)) in A3 by (apply Rmult_le_pos; lra). assert (P3 : 0 <= rd (t * l)) by (apply (proj1 (proj2 Hrd)), Rmult_le_pos; lra).
  pose proof (proj1 Hrd (rd (t * l))) as A4. rewrite (Rabs_pos_eq (rd (t * l))) in A4 by exact P3. set (z := rd (t * l)) in *. set (w := rd z) in *.
  assert (B : Rabs (lam - L) <= Rabs (rd (lam - L)) + (u * Rabs (lam - L) + eta)). { pose proof (Rabs_triang_inv (lam - L) (rd (lam - L))) as T. rewrite Rabs_minus_sym in A1. lra. }
  set (A := Rabs (lam - L)) in *. assert (PA : 0 <= A) by apply Rabs_pos. apply Rabs_le_between in A2. apply Rabs_le_between in A3. apply Rabs_le_between in A4.
  assert (T1 : t <= (1 + u) * (4 / 10000000000000000) + eta) by lra. assert (Z1 : z <= (1 + u) * (t * l) + eta) by lra. assert (W1 : w <= (1 + u) * z + eta) by lra.
  assert (T2 : t * l <= (1 + u) * (4 / 10000000000000000) * l + eta * l) by nra.
  assert (Z2 : z <= (1 + u) * ((1 + u) * (4 / 10000000000000000) * l + eta * l) + eta) by nra.
  assert (W2 : w <= (1 + u) * ((1 + u) * ((1 + u) * (4 / 10000000000000000) * l + eta * l) + eta) + eta) by nra.
  set (m := 4 / 10000000000000000 * l) in *. assert (Pm : 0 <= m) by (unfold m; apply Rmult_le_pos; lra). assert (Pel : 0 <= eta * l) by (apply Rmult_le_pos; lra).
  replace ((1 + u) * (4 / 10000000000000000) * l) with ((1 + u) * m) in W2 by (unfold m; ring). replace ((1 + 5 * u) * (4 / 10000000000000000) * l) with ((1 + 5 * u) * m) by (unfold m; ring).
  set (el := eta * l) in *. replace (4 * eta * (1 + l)) with (4 * eta + 4 * el) by (unfold el; ring).
  assert (F : (1 - u) * A <= (1 + u) * (1 + u) * (1 + u) * m + (1 + u) * (1 + u) * el + (3 + u) * eta) by lra. clearbody m el A. clear - F Hu He Pm Pel PA.
  assert (G1 : (1 + u) * (1 + u) * (1 + u) <= (1 - u) * (1 + 5 * u)) by nra. assert (G2 : (1 + u) * (1 + u) <= (1 - u) * 4) by nra. assert (G3 : 3 + u <= (1 - u) * 4) by lra.
  assert (H1 : (1 + u) * (1 + u) * (1 + u) * m <= (1 - u) * (1 + 5 * u) * m) by (apply Rmult_le_compat_r; auto).
  assert (H2 : (1 + u) * (1 + u) * el <= (1 - u) * 4 * el) by (apply Rmult_le_compat_r; auto).
  assert (H3 : (3 + u) * eta <= (1 - u) * 4 * eta) by (apply Rmult_le_compat_r; auto).
  apply (Rmult_le_reg_l (1 - u)); [lra|]. lra.
Qed.

(** * Doubles *)
Lemma double_close lam nb : 0 < nb -> bpow radix2 (-1022) <= lam / nb -> bpow radix2 (-900) <= lam ->
  lam_close_rd rnd64 lam (rnd64 (nb * rnd64 (lam / nb))) = true /\ 0 < rnd64 (lam / nb).
Proof.
  intros Hn H1 H2. pose proof (bpow_gt_0 radix2 (-1022)) as P1. pose proof (bpow_gt_0 radix2 (-900)) as P2. split.
  - pose proof (RescaleIEEE.rescale_check lam nb) as C. unfold allclose64, lambda64, wmax64 in C. unfold lam_close_rd, Rleb. apply C; [lra| |]; rewrite Rabs_pos_eq; lra.
  - pose proof (RescaleIEEE.rnd_rel (lam / nb)) as A. rewrite (Rabs_pos_eq (lam / nb)) in A by lra. specialize (A H1). apply Rabs_le_between in A. pose proof RescaleIEEE.u64_bounds. nra.
Qed.

Lemma rescale_double pw compute b e nb lam : built_rd (/ 2 ^ 53) eta64 rnd64 pw compute b -> seps (bsve b) = Some e -> e <= 1 -> is_double (nth 0 (ss (bsve b)) 0) ->
  klam (bkernel b) = Some lam -> 0 < nb -> bpow radix2 (-1022) <= lam / nb -> bpow radix2 (-900) <= lam ->
  fair_scale (/ 2 ^ 53) eta64 (nb / 2) (vgeom (su (bsve b))) -> fair_scale (/ 2 ^ 53) eta64 (rnd64 (lam / nb)) (vgeom (sv (bsve b))) ->
  tolerated (/ 2 ^ 53) (nb / 2) 1 (vgeom (su (bsve b))) -> tolerated (/ 2 ^ 53) (rnd64 (lam / nb)) 0 (vgeom (sv (bsve b))) ->
  exists b', rescale_rd rnd64 pw compute b nb = Ok b' /\ built_rd (/ 2 ^ 53) eta64 rnd64 pw compute b' /\ bbeta b' = nb /\ bwmax b' = rnd64 (lam / nb) /\
    bstat b' = bstat b /\ bkernel b' = bkernel b /\ bsve b' = bsve b /\ bsize b' = Nat.min (bsize b) (kept rnd64 e (ss (bsve b))).
Proof.
  intros Hb He H1 D Kl Hn L1 L2 Fu Fv Tu Tv. destruct (double_close lam nb Hn L1 L2) as [C W].
  destruct (built_full _ _ _ _ _ rounding_double b Hb) as (_ & _ & _ & _ & _ & _ & Ex & _). pose proof (first_value _ _ _ Ex) as P0.
  destruct (small_double 0 ltac:(lra)) as (_ & _ & E0 & E1). assert (P53 : 2 ^ 53 = 9007199254740992) by (cbn; lra).
  apply (rescale_rd_ok (/ 2 ^ 53) eta64 rnd64 pw compute rounding_double b e nb lam); auto.
  - rewrite <- (RescaleIEEE.rnd_id _ D) at 2. apply round_le; [apply FLT_exp_valid; reflexivity|apply valid_rnd_N|]. nra.
  - rewrite P53. lra.
  - split; [exact E0|]. assert (P : 1 <= 10 ^ 288) by (apply pow_R1_Rle; lra). replace (10 ^ 300) with (10 ^ 12 * 10 ^ 288) in E1 by (rewrite <- pow_add; reflexivity).
    apply (Rmult_le_reg_r (10 ^ 12)); [apply pow_lt; lra|]. rewrite Rinv_l by (apply pow_nonzero; lra). apply Rle_trans with (eta64 * (10 ^ 12 * 10 ^ 288)); [|eapply Rle_trans; [exact E1|]; rewrite P53; lra].
    assert (0 <= eta64 * 10 ^ 12) by (apply Rmult_le_pos; [exact E0|apply pow_le; lra]). rewrite <- Rmult_assoc. nra.
Qed.

(** * Pairs *)
Lemma ft_init_twin p q q' a f : q <> FAny -> q' <> FAny -> ft_init p q (AsympAt a) None = Ok f -> exists f', ft_init p q' (AsympAt a) None = Ok f'.
Proof.
  intros Hq Hq' H. unfold ft_init in *. destruct (_ || _); [discriminate|]. unfold power_model in *. destruct (derivs p 1) as [d|]; [|destruct q; discriminate]. cbn [bind] in *.
  destruct q'; [contradiction| |]; cbn [statsign bind]; eexists; reflexivity.
Qed.

Lemma twin rd pw compute beta wmax eps ms sve st st' f : (st = "F" \/ st = "B")%string -> (st' = "F" \/ st' = "B")%string ->
  basis_init_rd rd pw compute st beta wmax eps ms None sve = Ok f ->
  exists b, basis_init_rd rd pw compute st' beta wmax eps ms None sve = Ok b /\ bstat f = st /\ bstat b = st' /\ bbeta f = beta /\ bwmax f = wmax /\ shares f b.
Proof.
  intros Hs Hs' H. unfold basis_init_rd in *. destruct (negb (Rltb 0 beta)); [discriminate|]. destruct (negb (Rleb 0 wmax)); [discriminate|].
  assert (K : forall s, (s = "F" \/ s = "B")%string -> get_kernel_rd rd s (rd (beta * wmax)) None = Ok (logistic (rd (beta * wmax)))) by (intros s [-> | ->]; reflexivity).
  rewrite (K st Hs) in H. rewrite (K st' Hs'). cbn [bind] in *. destruct (match sve with Some r => Ok r | None => _ end) as [r|]; [|discriminate]. cbn [bind] in *.
  destruct (part_rd rd r eps ms) as [[[u0 s] v0]|]; [|discriminate]. cbn [bind] in *. destruct (match s with [] => _ | _ :: _ => _ end) as [acc|]; [|discriminate]. cbn [bind] in *.
  destruct (rescaled_rd rd u0 _ _) as [u1|]; [|discriminate]. cbn [bind] in *. destruct (rescaled_rd rd v0 _ _) as [v1|]; [|discriminate]. cbn [bind] in *. cbn [logistic klam] in *.
  assert (Q : forall s, (s = "F" \/ s = "B")%string -> exists q, even_odd s = Ok q /\ q <> FAny) by (intros s0 [-> | ->]; eexists; split; try reflexivity; discriminate).
  destruct (Q st Hs) as (q & Eq & Nq). destruct (Q st' Hs') as (q' & Eq' & Nq'). rewrite Eq in H. rewrite Eq'. cbn [bind] in *.
  destruct (ft_init _ q (AsympAt (rd (40 * _))) None) as [g|] eqn:G; [|discriminate]. destruct (ft_init_twin _ q q' _ g Nq Nq' G) as [g' G']. rewrite G'. cbn [bind] in *.
  destruct (ft_slice g _) as [h|]; [|discriminate]. injection H as <-. destruct (ft_slice_some _ _ _ _ (Z.of_nat (length s)) G') as (h' & H' & _). rewrite H'. cbn [bind]. eexists. split; [reflexivity|]. repeat split.
Qed.

Lemma pair_rd rd pw compute beta wmax eps sve f b : finite_temp_bases_rd rd pw compute beta wmax eps sve = Ok (f, b) ->
  bstat f = "F"%string /\ bstat b = "B"%string /\ bbeta f = beta /\ bwmax f = wmax /\ shares f b /\
  match sve with Some r => bsve f = r | None => compute (logistic (rd (beta * wmax))) eps = Ok (bsve f) end.
Proof.
  unfold finite_temp_bases_rd. intros H. destruct (match sve with Some r => Ok r | None => _ end) as [r|] eqn:Er; [|discriminate]. cbn [bind] in H.
  destruct (basis_init_rd rd pw compute "F" beta wmax eps None None (Some r)) as [f0|] eqn:E1; [|discriminate]. cbn [bind] in H.
  destruct (basis_init_rd rd pw compute "B" beta wmax eps None None (Some r)) as [b0|] eqn:E2; [|discriminate]. cbn [bind] in H. injection H as <- <-.
  destruct (twin rd pw compute beta wmax eps None (Some r) "F" "B" f0 (or_introl eq_refl) (or_intror eq_refl) E1) as (b1 & E2' & A1 & A2 & A3 & A4 & A5). rewrite E2 in E2'. injection E2' as <-.
  repeat (split; [assumption|]). assert (bsve f0 = r). { clear - E1. unfold basis_init_rd in E1. destruct (negb _); [discriminate|]. destruct (negb _); [discriminate|]. destruct (get_kernel_rd _ _ _ _); [|discriminate]. cbn [bind] in E1.
    destruct (part_rd _ _ _ _) as [[[u0 s] v0]|]; [|discriminate]. cbn [bind] in E1. destruct (match s with [] => _ | _ :: _ => _ end); [|discriminate]. cbn [bind] in E1.
    destruct (rescaled_rd rd u0 _ _); [|discriminate]. cbn [bind] in E1. destruct (rescaled_rd rd v0 _ _); [|discriminate]. cbn [bind] in E1. destruct (klam _); [|discriminate].
    cbn [even_odd String.eqb Ascii.eqb Bool.eqb bind] in E1. destruct (ft_init _ _ _ _); [|discriminate]. cbn [bind] in E1. destruct (ft_slice _ _); [|discriminate]. injection E1 as <-. reflexivity. }
  destruct sve; congruence.
Qed.
Lemma set_is_pair rd pw compute beta wmax eps sve : basis_set_rd rd pw compute beta wmax eps sve = finite_temp_bases_rd rd pw compute beta wmax eps sve.
Proof. unfold basis_set_rd, finite_temp_bases_rd. destruct sve; reflexivity. Qed.
Lemma pair_succeeds rd pw compute beta wmax eps r : (exists f, basis_init_rd rd pw compute "F" beta wmax eps None None (Some r) = Ok f) <-> (exists fb, finite_temp_bases_rd rd pw compute beta wmax eps (Some r) = Ok fb).
Proof.
  unfold finite_temp_bases_rd. cbn [bind]. split.
  - intros [f E1]. destruct (twin rd pw compute beta wmax eps None (Some r) "F" "B" f (or_introl eq_refl) (or_intror eq_refl) E1) as (b1 & E2 & _). rewrite E1. cbn [bind]. rewrite E2. eexists. reflexivity.
  - intros [fb H]. destruct (basis_init_rd rd pw compute "F" beta wmax eps None None (Some r)) as [f0|] eqn:E1; [|discriminate]. eauto.
Qed.

(** * Exact arithmetic *)
Lemma ops_exact compute b i nb beta wmax eps sve :
  basis_getitem_rd (fun x => x) powerRZ compute b i = basis_getitem compute b i /\ rescale_rd (fun x => x) powerRZ compute b nb = rescale compute b nb /\
  finite_temp_bases_rd (fun x => x) powerRZ compute beta wmax eps sve = finite_temp_bases compute beta wmax eps sve /\ significance_rd (fun x => x) b = significance b /\ lambda_rd (fun x => x) b = bbeta b * bwmax b.
Proof.
  unfold basis_getitem_rd, basis_getitem, rescale_rd, rescale, finite_temp_bases_rd, finite_temp_bases. repeat split.
  - destruct (slice_to_size i); [|reflexivity]. cbn [bind]. apply init_exact.
  - destruct (klam _); [|reflexivity]. destruct (Reqb nb 0); [reflexivity|]. apply init_exact.
  - destruct (match sve with Some r => Ok r | None => _ end); [|reflexivity]. cbn [bind]. rewrite !init_exact. reflexivity.
Qed.

(** * Examples *)
Import PPolyExamples SVEPolicy.
Lemma rnd_at k m x : bpow radix2 (k - 1) <= x < bpow radix2 k -> (-1021 <= k)%Z -> Rabs (x * bpow radix2 (53 - k) - IZR m) < / 2 -> rnd64 x = IZR m * bpow radix2 (k - 53).
Proof.
  intros Hx Hk Hm. pose proof (bpow_gt_0 radix2 (k - 1)) as P. assert (M : mag radix2 x = k :> Z) by (apply mag_unique; rewrite Rabs_pos_eq; lra).
  unfold rnd64, round, F2R, scaled_mantissa. cbn [Fnum Fexp]. assert (CE : Generic_fmt.cexp radix2 fexp64 x = (k - 53)%Z). { unfold Generic_fmt.cexp. rewrite M. unfold fexp64, FLT_exp. lia. }
  rewrite CE. replace (- (k - 53))%Z with (53 - k)%Z by ring. rewrite (Znearest_imp _ _ m Hm). reflexivity.
Qed.

(** beta = 5 and wmax = 7/4 + 2^-52: Lambda rounds up, and Lambda / beta is the next
    number after wmax. *)
Definition wide : R := 7 / 4 + / 2 ^ 52.
Lemma wide_lam : rnd64 (5 * wide) = 35 / 4 + / 2 ^ 49.
Proof.
  assert (Q : 2 ^ 52 = 4503599627370496) by (cbn; lra). assert (Q' : 2 ^ 49 = 562949953421312) by (cbn; lra). unfold wide. rewrite Q, Q'.
  rewrite (rnd_at 4 4925812092436481).
  - change (bpow radix2 (4 - 53)) with (/ 562949953421312). lra.
  - change (bpow radix2 (4 - 1)) with 8. change (bpow radix2 4) with 16. lra.
  - lia.
  - change (bpow radix2 (53 - 4)) with 562949953421312. apply Rabs_lt. lra.
Qed.
Lemma wide_back : rnd64 ((35 / 4 + / 2 ^ 49) / 5) = 7 / 4 + / 2 ^ 51.
Proof.
  assert (Q : 2 ^ 51 = 2251799813685248) by (cbn; lra). assert (Q' : 2 ^ 49 = 562949953421312) by (cbn; lra). rewrite Q, Q'.
  rewrite (rnd_at 1 7881299347898370).
  - change (bpow radix2 (1 - 53)) with (/ 4503599627370496). lra.
  - change (bpow radix2 (1 - 1)) with 1. change (bpow radix2 1) with 2. lra.
  - lia.
  - change (bpow radix2 (53 - 1)) with 4503599627370496. apply Rabs_lt. lra.
Qed.

Lemma small_units : 0 < / 2 ^ 53 <= / 10000 /\ 0 <= / 2 ^ 53 <= / 10 ^ 10 /\ 0 <= eta64 <= / 10 ^ 12.
Proof.
  destruct (small_double 0 ltac:(lra)) as (_ & _ & E0 & E1). assert (P53 : 2 ^ 53 = 9007199254740992) by (cbn; lra). assert (P10 : 10 ^ 10 = 10000000000) by (cbn; lra).
  split; [rewrite P53; lra|]. split; [rewrite P53, P10; lra|]. split; [exact E0|].
  assert (P : 1 <= 10 ^ 288) by (apply pow_R1_Rle; lra). replace (10 ^ 300) with (10 ^ 12 * 10 ^ 288) in E1 by (rewrite <- pow_add; reflexivity).
  apply (Rmult_le_reg_r (10 ^ 12)); [apply pow_lt; lra|]. rewrite Rinv_l by (apply pow_nonzero; lra). apply Rle_trans with (eta64 * (10 ^ 12 * 10 ^ 288)); [|eapply Rle_trans; [exact E1|]; rewrite P53; lra].
  assert (0 <= eta64 * 10 ^ 12) by (apply Rmult_le_pos; [exact E0|apply pow_le; lra]). rewrite <- Rmult_assoc. nra.
Qed.

Lemma two_kept : kept rnd64 (/ 10) [1; 1 / 2] = 2%nat.
Proof.
  unfold kept. cbn [nth filter]. assert (H : rnd64 (/ 10 * 1) <= / 2).
  { replace (/ 2) with (rnd64 (/ 2)) by (apply (rnd_of 1 (-1)); [cbn; lra|lia|lia]). apply round_le; [apply FLT_exp_valid; reflexivity|apply valid_rnd_N|lra]. }
  rewrite !(proj2 (Rleb_true _ _)) by lra. reflexivity.
Qed.

Lemma ex_wide compute : exists b, basis_init_rd rnd64 powerRZ compute "F" 5 wide (Some (/ 10)) None None (Some (ex_sve (/ 10))) = Ok b /\
  built_rd (/ 2 ^ 53) eta64 rnd64 powerRZ compute b /\ bsve b = ex_sve (/ 10) /\ bbeta b = 5 /\ bwmax b = wide /\ bsize b = 2%nat /\ klam (bkernel b) = Some (35 / 4 + / 2 ^ 49).
Proof.
  destruct small_units as (U & U10 & E). assert (Q : 2 ^ 52 = 4503599627370496) by (cbn; lra). assert (W : 1 <= wide <= 2) by (unfold wide; rewrite Q; lra).
  destruct (rd_succeeds (/ 2 ^ 53) eta64 rnd64 powerRZ compute "F" 5 wide (/ 10) None (ex_sve (/ 10))) as (b & H & Er & Eb & Ew & Es & Kl); auto; try lra.
  { apply rounding_double. } { apply ex_near. } { apply unit_fair. lra. } { apply unit_fair. lra. } { apply unit_tolerated; [exact U10|lra]. } { apply unit_tolerated; [exact U10|lra]. }
  { cbn [ex_sve ss nth]. assert (P12 : / 10 ^ 12 <= / 10) by (apply Rinv_le_contravar; [lra|]; apply Rle_trans with (10 ^ 1); [lra|apply Rle_pow; [lra|lia]]). lra. }
  assert (Hb : built_rd (/ 2 ^ 53) eta64 rnd64 powerRZ compute b). { exists "F"%string, 5, wide, (Some (/ 10)), None, None, (Some (ex_sve (/ 10))). split; [exact H|]. rewrite Er. split; [apply ex_near|lra]. }
  exists b. split; [exact H|]. split; [exact Hb|]. split; [exact Er|]. split; [exact Eb|]. split; [exact Ew|]. split; [|rewrite Kl, wide_lam; reflexivity].
  destruct (basis_rd_inv (/ 2 ^ 53) eta64 rnd64 powerRZ compute _ _ _ _ _ _ _ _ H) as (k & r & lam & q & e & n & f & f' & _ & _ & _ & Hr & Ex & He & Hn & Hnl & _ & _ & _ & _ & _ & _ & E'); [rewrite Er; apply ex_near|].
  injection Hr as <-. injection He as <-. rewrite E'. unfold bsize. cbn [the_basis_rd bs]. rewrite map_length, firstn_length_le by apply Hnl. rewrite Hn. cbn [part_size].
  rewrite (kept_above rnd64); [apply two_kept|]. cbn. lra.
Qed.

Lemma rescale_own compute : exists b b', built_rd (/ 2 ^ 53) eta64 rnd64 powerRZ compute b /\ is_double (bbeta b) /\ is_double (bwmax b) /\
  rescale_rd rnd64 powerRZ compute b (bbeta b) = Ok b' /\ bwmax b' = bwmax b + / 2 ^ 52.
Proof.
  destruct (ex_wide compute) as (b & _ & Hb & Er & Eb & Ew & Sz & Kl). destruct small_units as (U & U10 & E). exists b.
  assert (Q : 2 ^ 51 = 2251799813685248) by (cbn; lra). assert (Q' : 2 ^ 49 = 562949953421312) by (cbn; lra). assert (Q2 : 2 ^ 52 = 4503599627370496) by (cbn; lra).
  assert (T1 : bpow radix2 (-900) <= 1) by (change 1 with (bpow radix2 0); apply bpow_le; lia). assert (T2 : bpow radix2 (-1022) <= 1) by (change 1 with (bpow radix2 0); apply bpow_le; lia).
  destruct (rescale_double powerRZ compute b (/ 10) 5 (35 / 4 + / 2 ^ 49)) as (b' & H & Hb' & B1 & B2 & _); auto; rewrite ?Er; try reflexivity; try lra.
  - cbn [ex_sve ss nth]. replace 1 with (IZR 1 * bpow radix2 0) by (cbn; lra). apply double_of; lia.
  - apply unit_fair. lra.
  - rewrite wide_back. apply unit_fair. rewrite Q. lra.
  - apply unit_tolerated; [exact U10|lra].
  - apply unit_tolerated; [exact U10|lra].
  - exists b'. split; [exact Hb|]. rewrite Eb, Ew. split; [replace 5 with (IZR 5 * bpow radix2 0) by (cbn; lra); apply double_of; lia|].
    split; [unfold wide; rewrite Q2; replace (7 / 4 + / 4503599627370496) with (IZR 7881299347898369 * bpow radix2 (-52)) by (change (bpow radix2 (-52)) with (/ 4503599627370496); lra); apply double_of; lia|].
    split; [exact H|]. rewrite B2, wide_back. unfold wide. rewrite Q, Q2. lra.
Qed.

(** A slice and a rescaled basis. *)
Lemma ex_ops compute : exists b b1 b2, built_rd (/ 2 ^ 53) eta64 rnd64 powerRZ compute b /\ bsize b = 2%nat /\
  basis_getitem_rd rnd64 powerRZ compute b (IdxSlice None (Some (PyInt 1)) None) = Ok b1 /\ bsize b1 = 1%nat /\ first_of_rd 1 b b1 /\
  apply_ops rnd64 powerRZ compute b [Rescaled 5; Rescaled 5] = Ok b2 /\ apply_ops rnd64 powerRZ compute b [Rescaled 5] = Ok b2 /\ bsize b2 = 2%nat.
Proof.
  destruct (ex_wide compute) as (b & _ & Hb & Er & Eb & Ew & Sz & Kl). destruct small_units as (U & U10 & E). exists b.
  assert (Q : 2 ^ 51 = 2251799813685248) by (cbn; lra). assert (Q' : 2 ^ 49 = 562949953421312) by (cbn; lra).
  assert (T1 : bpow radix2 (-900) <= 1) by (change 1 with (bpow radix2 0); apply bpow_le; lia). assert (T2 : bpow radix2 (-1022) <= 1) by (change 1 with (bpow radix2 0); apply bpow_le; lia).
  assert (Rs : forall a, built_rd (/ 2 ^ 53) eta64 rnd64 powerRZ compute a -> bsve a = ex_sve (/ 10) -> klam (bkernel a) = Some (35 / 4 + / 2 ^ 49) -> bsize a = 2%nat ->
    exists a', rescale_rd rnd64 powerRZ compute a 5 = Ok a' /\ built_rd (/ 2 ^ 53) eta64 rnd64 powerRZ compute a' /\ bbeta a' = 5 /\ bwmax a' = rnd64 ((35 / 4 + / 2 ^ 49) / 5) /\
      bstat a' = bstat a /\ bkernel a' = bkernel a /\ bsve a' = bsve a /\ bsize a' = 2%nat).
  { intros a Ha Ear Kla Sza. destruct (rescale_double powerRZ compute a (/ 10) 5 (35 / 4 + / 2 ^ 49)) as (b' & H & Hb' & B1 & B2 & B3 & B4 & B5 & B6); auto; rewrite ?Ear; try reflexivity; try lra.
    - cbn [ex_sve ss nth]. replace 1 with (IZR 1 * bpow radix2 0) by (cbn; lra). apply double_of; lia.
    - apply unit_fair. lra.
    - rewrite wide_back. apply unit_fair. rewrite Q. lra.
    - apply unit_tolerated; [exact U10|lra].
    - apply unit_tolerated; [exact U10|lra].
    - exists b'. repeat (split; [assumption|]). split; [congruence|]. rewrite B6, Ear, Sza. cbn [ex_sve ss]. rewrite two_kept. reflexivity. }
  destruct (Rs b Hb Er Kl Sz) as (b1 & H1 & Hb1 & A1 & A2 & A3 & A4 & A5 & A6). destruct (Rs b1 Hb1) as (b2 & H2 & Hb2 & B1 & B2 & B3 & B4 & B5 & B6); try congruence.
  assert (E2 : b2 = b1). { apply (determined (/ 2 ^ 53) eta64 rnd64 powerRZ compute rounding_double b1 b2); auto; [|congruence]. repeat split; congruence. } subst b2.
  destruct (slice_rd (/ 2 ^ 53) eta64 rnd64 powerRZ compute rounding_double b (/ 10) (IdxSlice None (Some (PyInt 1)) None) (Some (PyInt 1)) Hb) as (c & C1 & C2 & C3 & C4 & C5 & _).
  { rewrite Er. reflexivity. }
  { rewrite Er. cbn [ex_sve ss nth]. assert (H : rnd64 (/ 10 * 1) <= rnd64 1) by (apply round_le; [apply FLT_exp_valid; reflexivity|apply valid_rnd_N|lra]).
    rewrite (rnd_of 1 0 1) in H; [exact H|cbn; lra|lia|lia]. }
  { exists None, None. auto. } { right. exists 1%Z. split; [reflexivity|lia]. }
  rewrite Er in C3, C5. cbn [ex_sve ss] in C3, C5. rewrite two_kept in C3, C5. cbn [Z.to_nat Pos.to_nat Pos.iter_op Nat.min] in C3, C5.
  exists c, b1. split; [exact Hb|]. split; [exact Sz|]. split; [exact C1|]. split; [exact C3|]. split; [apply C5; rewrite Sz; cbn; lia|].
  cbn [apply_ops apply_op]. rewrite H1. cbn [bind]. rewrite H2. cbn [bind]. auto.
Qed.

Lemma ex_signif compute : exists b, built_rd (/ 2 ^ 53) eta64 rnd64 powerRZ compute b /\ bsize b = 2%nat /\ 0 < nth 0 (bs b) 0 /\ 1000 * eta64 <= / 2 ^ 53 * nth 0 (bs b) 0 /\ rnd64 1 = 1 /\
  (forall x y, x <= y -> rnd64 x <= rnd64 y).
Proof.
  destruct (ex_wide compute) as (b & H & Hb & Er & Eb & Ew & Sz & Kl). destruct small_units as (U & U10 & E). exists b. split; [exact Hb|]. split; [exact Sz|].
  assert (Q : 2 ^ 52 = 4503599627370496) by (cbn; lra). assert (W : 1 <= wide <= 2) by (unfold wide; rewrite Q; lra).
  assert (Kp : kyp (bkernel b) = 0%Z).
  { destruct (basis_rd_inv (/ 2 ^ 53) eta64 rnd64 powerRZ compute _ _ _ _ _ _ _ _ H) as (k & r & lam & q & e & n & f & f' & _ & _ & Hk & Hr & _ & _ & _ & _ & _ & _ & _ & _ & _ & _ & E'); [rewrite Er; apply ex_near|].
    unfold get_kernel_rd in Hk. cbn [negb stat_in] in Hk. injection Hk as <-. rewrite E'. reflexivity. }
  destruct (small_double 0 ltac:(lra)) as (_ & _ & E0 & E1). assert (P53 : 2 ^ 53 = 9007199254740992) by (cbn; lra).
  assert (E40 : eta64 <= / 10 ^ 40). { assert (P : 0 < 10 ^ 300) by (apply pow_lt; lra). apply Rle_trans with (/ 10 ^ 300); [apply (Rmult_le_reg_r (10 ^ 300)); [exact P|]; rewrite Rinv_l by lra; eapply Rle_trans; [exact E1|]; rewrite P53; lra|].
    apply Rinv_le_contravar; [apply pow_lt; lra|]. apply Rle_pow; [lra|lia]. }
  clear E1. assert (P40 : 10 ^ 40 = 10000000000000000000000000000000000000000) by (cbn; lra). rewrite P40 in E40.
  assert (S1 : 1 <= sqrt (5 / 2 * wide)) by (rewrite <- sqrt_1; apply sqrt_le_1_alt; lra).
  assert (T : forall x, 1 <= x -> 1000 * eta64 <= / 2 ^ 53 * x) by (intros x Hx; rewrite P53; lra).
  pose proof (rd_singular (/ 2 ^ 53) eta64 rnd64 rounding_double U E0 powerRZ compute b Hb 0 0) as A. rewrite Eb, Ew, Kp, Er in A. cbn [ex_sve ss nth Z.opp] in A. rewrite powerRZ_O in A.
  assert (A' : Rabs (nth 0 (bs b) 0 - sqrt (5 / 2 * wide) * 1 * 1) <= (6 * / 2 ^ 53 + 0) * (sqrt (5 / 2 * wide) * 1 * 1) + eta64).
  { apply A; try (apply T; lra); try lra; [|unfold bsize in Sz; rewrite Sz; lia]. intros x z Hx. rewrite Rminus_eq_0, Rabs_R0. lra. }
  clear A. rewrite !Rmult_1_r in A'. set (s := sqrt (5 / 2 * wide)) in *. apply Rabs_le_between in A'. rewrite P53 in *.
  split; [lra|]. split; [lra|]. split; [apply (rnd_of 1 0); [cbn; lra|lia|lia]|]. intros x y. apply round_le; [apply FLT_exp_valid; reflexivity|apply valid_rnd_N].
Qed.

(** A basis that cannot be rescaled. *)
Lemma thin_u : u_accepted rnd64 thin_sve 2.
Proof.
  intros n. assert (Q : 2 ^ 52 = 4503599627370496) by (cbn; lra).
  assert (R1 : rnd64 (2 / 2) = 1). { replace (2 / 2) with 1 by field. apply (rnd_of 1 0); [cbn; lra|lia|lia]. }
  assert (K0 : rnd64 (1 * rnd64 (-1 + 1)) = 0). { replace (-1 + 1) with 0 by ring. rewrite (rd_zero _ _ _ rounding_double), Rmult_0_r. apply (rd_zero _ _ _ rounding_double). }
  assert (R2 : rnd64 (1 - / 2 ^ 52 + 1) = 2 - / 2 ^ 52). { replace (1 - / 2 ^ 52 + 1) with (2 - / 2 ^ 52) by ring. apply (rnd_of (2 ^ 53 - 1) (-52)); [|lia|lia]. rewrite Q. change (bpow radix2 (-52)) with (/ 4503599627370496). change (2 ^ 53 - 1)%Z with 9007199254740991%Z. lra. }
  assert (K1 : rnd64 (1 * rnd64 (1 - / 2 ^ 52 + 1)) = 2 - / 2 ^ 52) by (rewrite R2, Rmult_1_l, <- R2; apply RescaleIEEE.rnd_id, RescaleIEEE.rnd_double).
  assert (R3 : rnd64 (1 + 1) = 2). { replace (1 + 1) with 2 by ring. apply (rnd_of 1 1); [cbn; lra|lia|lia]. }
  assert (K2 : rnd64 (1 * rnd64 (1 + 1)) = 2) by (rewrite R3, Rmult_1_l; apply (rnd_of 1 1); [cbn; lra|lia|lia]).
  assert (C : forall x, close_rd rnd64 x x = true).
  { intros x. unfold close_rd. rewrite Rminus_eq_0, (rd_zero _ _ _ rounding_double), Rabs_R0. apply Rleb_true. apply (proj1 (proj2 rounding_double)). apply Rplus_le_le_0_compat; apply (proj1 (proj2 rounding_double)); [left; apply Rinv_0_lt_compat, pow_lt; lra|].
    apply Rmult_le_pos; [apply (proj1 (proj2 rounding_double)); left; apply Rinv_0_lt_compat, pow_lt; lra|apply Rabs_pos]. }
  assert (I : forall x, rnd64 (1 * rnd64 x) = rnd64 x) by (intros x; rewrite Rmult_1_l; apply RescaleIEEE.rnd_id, RescaleIEEE.rnd_double).
  assert (EK : map (fun x => rnd64 (1 * rnd64 (x + 1))) thin_knots = [0; 2 - / 2 ^ 52; 2]) by (unfold thin_knots; cbn [map]; rewrite K0, K1, K2; reflexivity).
  assert (EI : forall l, map (fun d => rnd64 (1 * d)) (map rnd64 l) = map rnd64 l) by (intros l; rewrite map_map; apply map_ext; intros x; apply I).
  assert (ED : diffs [0; 2 - / 2 ^ 52; 2] = diffs thin_knots) by (unfold diffs, thin_knots, init; cbn [removelast map tl map2 combine fst snd]; f_equal; [ring|f_equal; ring]).
  assert (CL : forall l, allclose_rd rnd64 l l = true). { intros l. unfold allclose_rd. induction l as [|x l IH]; [reflexivity|]. unfold map2 in *. cbn [combine map forallb fst snd]. rewrite C. exact IH. }
  unfold rescaled_rd, poly_given_rd, u_moved, moved_geom. cbn [take vgeom vcols thin_sve su thin_poly gknots gnseg gdx glen gorder]. rewrite R1, EI, EK, ED, CL. rewrite !map_length, Nat.eqb_refl.
  rewrite !Nat.eqb_refl. change (length (diffs thin_knots) =? 2)%nat with true. rewrite map2_cols.
  unfold init. cbn [removelast tl map2 forallb length Nat.eqb negb]. rewrite !(proj2 (Rleb_true _ _)) by (rewrite Q; lra). reflexivity.
Qed.

Lemma wide_v T : 1 <= T <= 10 -> v_accepted rnd64 thin_sve T.
Proof.
  intros HT m. destruct small_units as (U & U10 & E). pose proof thin_near as (_ & Sv & _). assert (P53 : 0 < / 2 ^ 53) by lra.
  assert (E1 : Rabs (T - T) <= / 2 ^ 53 * T + eta64) by (rewrite Rminus_eq_0, Rabs_R0; assert (0 <= / 2 ^ 53 * T) by (apply Rmult_le_pos; lra); lra).
  assert (P : / 10 ^ 290 <= 1). { rewrite <- Rinv_1. apply Rinv_le_contravar; [lra|]. apply pow_R1_Rle. lra. }
  assert (Q : 100 <= 10 ^ 290). { apply Rle_trans with (10 ^ 2); [lra|]. apply Rle_pow; [lra|lia]. }
  assert (Fv : fair_scale (/ 2 ^ 53) eta64 T (vgeom (sv thin_sve))). { apply fair_scale_double; [split; lra|]. intros [|i] Hi; [|cbn in Hi; lia]. unfold knot. cbn [thin_sve sv wide_poly vgeom gknots nth]. split; lra. }
  assert (Tv : tolerated (/ 2 ^ 53) T 0 (vgeom (sv thin_sve))).
  { intros [|i] Hi; [|cbn in Hi; lia]. left. unfold outer, knot. cbn [thin_sve sv wide_poly vgeom gknots nth]. assert (R : Rmax (Rabs (-1 + 0)) (Rabs (1 + 0)) <= 2) by (apply Rmax_lub; apply Rabs_le; lra).
    assert (R0 : 0 <= Rmax (Rabs (-1 + 0)) (Rabs (1 + 0))) by (eapply Rle_trans; [apply Rabs_pos|apply Rmax_l]). assert (P6 : 10 ^ 6 = 1000000) by (cbn; lra). assert (P10 : 10 ^ 10 = 10000000000) by (cbn; lra). rewrite P6. rewrite P10 in U10. nra. }
  exact (rescaled_ok (/ 2 ^ 53) eta64 rnd64 rounding_double U T 0 T (fun x => x) ltac:(lra) E1 (shift0 (/ 2 ^ 53) eta64 U (proj1 E)) (take m (sv thin_sve)) Sv Fv (proj2 E) Tv).
Qed.

Lemma half_kept : kept rnd64 (/ 2) [1] = 1%nat.
Proof.
  unfold kept. cbn [nth filter]. assert (H2 : rnd64 (/ 2 * 1) = / 2) by (rewrite Rmult_1_r; apply (rnd_of 1 (-1)); [cbn; lra|lia|lia]). rewrite H2, (proj2 (Rleb_true _ _)) by lra. reflexivity.
Qed.

(** An accepted rescaling to [cold] would be an accepted construction there. *)
Lemma rescale_cold pw compute : exists b, built_rd (/ 2 ^ 53) eta64 rnd64 pw compute b /\ bbeta b = 2 /\ bwmax b = 1 /\ forall b', rescale_rd rnd64 pw compute b cold <> Ok b'.
Proof.
  assert (Ec : cold = 1610612736) by (unfold cold; cbn; lra).
  assert (R2 : rnd64 (2 * 1) = 2) by (rewrite Rmult_1_r; apply (rnd_of 1 1); [cbn; lra|lia|lia]).
  destruct (basis_rd_ok (/ 2 ^ 53) eta64 rnd64 pw compute "F" 2 1 (Some (/ 2)) None None (Some thin_sve) (logistic 2) thin_sve 2 FOdd (/ 2) 1) as (f & f' & H); try reflexivity; try lra; try lia; try exact thin_near.
  { cbn [get_kernel_rd]. rewrite R2. reflexivity. } { cbn. auto. } { cbn [part_size thin_sve ss]. rewrite (kept_above rnd64) by (cbn; lra). symmetry. exact half_kept. } { exact (thin_u 1%nat). } { apply (wide_v 1). lra. }
  eexists. split; [exists "F"%string, 2, 1, (Some (/ 2)), None, None, (Some thin_sve); split; [exact H|]; split; [exact thin_near|lra]|]. split; [reflexivity|]. split; [reflexivity|].
  intros b' H'. set (b := the_basis_rd _ _ _ _ _ _ _ _ _ _) in *.
  assert (Hb : built_rd (/ 2 ^ 53) eta64 rnd64 pw compute b) by (exists "F"%string, 2, 1, (Some (/ 2)), None, None, (Some thin_sve); split; [exact H|]; split; [exact thin_near|lra]).
  assert (Kl : klam (bkernel b) = Some 2) by reflexivity. assert (N2 : rnd64 2 <> 0) by (rewrite Rmult_1_r in R2; rewrite R2; lra).
  pose proof (wmax_needed (/ 2 ^ 53) eta64 rnd64 pw compute rounding_double b cold 2 b' Kl N2 H') as W. unfold rescale_rd in H'. rewrite Kl in H'. destruct (Reqb cold 0); [discriminate|].
  destruct (remade (/ 2 ^ 53) eta64 rnd64 pw compute rounding_double _ _ _ _ _ _ Hb W H') as (Hb' & _ & A2 & A3 & _ & A5).
  destruct (built_full _ _ _ _ _ rounding_double b' Hb') as (_ & _ & _ & _ & _ & _ & _ & _ & _ & _ & _ & Au & Av & _). rewrite A2, A5 in Au. rewrite A3, A5 in Av. change (bsve b) with thin_sve in Au, Av.
  set (w := rnd64 (2 / cold)) in *.
  destruct (basis_rd_ok (/ 2 ^ 53) eta64 rnd64 pw compute "F" cold w (Some (/ 2)) None None (Some thin_sve) (logistic (rnd64 (cold * w))) thin_sve (rnd64 (cold * w)) FOdd (/ 2) 1) as (g & g' & G); try reflexivity; try lra; try lia; try exact thin_near.
  { cbn. auto. } { cbn [part_size thin_sve ss]. rewrite (kept_above rnd64) by (cbn; lra). symmetry. exact half_kept. } { exact (Au 1%nat). } { exact (Av 1%nat). }
  rewrite (cold_refused pw compute "F" w None (or_introl eq_refl) (Rlt_le _ _ W) eq_refl) in G. discriminate.
Qed.
