(** Proofs of C98: double precision and examples. *)
From Coq Require Import Reals ZArith Arith Bool Lra Lia Psatz String.
From Flocq Require Import Core.
From Coquelicot Require Import Coquelicot.
From Coq Require Import List Sorting.Sorted.
From Verif.Model Require Import Base Util Num IEEE Poly PolyIEEE FT FTIEEE SVE Basis BasisIEEE.
From Verif.Spec Require Import SPoly SFT SSVE SBasis SKernelIEEE SGaussIEEE SPolyIEEE SSVEIEEE SFTIEEE SBasisIEEE.
From Verif.Proofs Require Import BaseFacts UtilFacts SumFacts LegFacts PPolyFacts SVEFacts KernelRoundCall BasisFacts BasisInit BasisProps GaussRound PolyRound BasisRoundPiece BasisRoundGeom BasisRound BasisRoundProps BasisRoundMore.
From Verif.Proofs Require RescaleIEEE PPolyExamples SVEPolicy BasisOps.
Import ListNotations.
Open Scope R_scope.
Notation length := List.length.

Lemma double_of m e : (Z.abs m < 2 ^ 53)%Z -> (-1074 <= e)%Z -> is_double (IZR m * bpow radix2 e).
Proof. intros Hm He. unfold is_double, fexp64. apply generic_format_FLT. exists (Float radix2 m e); cbn [Fnum Fexp]; auto. Qed.
Lemma double_half x : is_double x -> bpow radix2 (-1000) <= x -> is_double (x / 2).
Proof.
  intros H Hx. unfold is_double, fexp64 in *. apply FLT_format_generic in H; [|reflexivity]. destruct H as [[m e] E Hm He]. cbn [Fnum Fexp] in *.
  rewrite E in *. unfold F2R in *. cbn [Fnum Fexp] in *. replace (IZR m * bpow radix2 e / 2) with (IZR m * bpow radix2 (e - 1)).
  2: { unfold Zminus. rewrite bpow_plus. change (bpow radix2 (- (1))) with (/ 2). field. }
  destruct (Z_le_gt_dec (-1073) e) as [C|C]; [apply double_of; [exact Hm|lia]|exfalso].
  assert (Lt : IZR m * bpow radix2 e < bpow radix2 (-1000)); [|lra].
  apply Rlt_le_trans with (bpow radix2 53 * bpow radix2 e).
  - apply Rmult_lt_compat_r; [apply bpow_gt_0|]. change (bpow radix2 53) with (IZR (2 ^ 53)). apply IZR_lt. change (radix2 ^ 53)%Z with (2 ^ 53)%Z in Hm. lia.
  - rewrite <- bpow_plus. apply bpow_le. lia.
Qed.

Lemma double_ends pw compute b : built_rd (/ 2 ^ 53) eta64 rnd64 pw compute b -> is_double (bbeta b) -> is_double (bwmax b) -> bpow radix2 (-1000) <= bbeta b ->
  gxmin (vgeom (bu b)) = 0 /\ gxmax (vgeom (bu b)) = bbeta b /\ gxmin (vgeom (bv b)) = - bwmax b /\ gxmax (vgeom (bv b)) = bwmax b.
Proof.
  intros Hb D1 D2 L. apply (rd_ends (/ 2 ^ 53) eta64 rnd64 pw compute b rounding_double Hb); apply RescaleIEEE.rnd_id; auto.
  - replace 2 with (IZR 1 * bpow radix2 1) by (cbn; lra). apply double_of; lia.
  - apply double_half; auto.
  - apply generic_format_opp. exact D2.
Qed.

(** * Ranges *)
Lemma fair_scale_double T g : / 10 ^ 290 <= T <= 10 ^ 290 ->
  (forall i, (i < gnseg g)%nat -> / 10 ^ 290 <= T * (knot g (S i) - knot g i) <= 10 ^ 290) -> fair_scale (/ 2 ^ 53) eta64 T g.
Proof.
  intros HT Hk.
  assert (G : forall h, / 10 ^ 290 <= h <= 10 ^ 290 -> 1000 * eta64 <= / 2 ^ 53 * h /\ 1000 * eta64 * h <= / 2 ^ 53).
  { intros h Hh. pose proof (fair_double (Geom 0 0 1 [0; h] []) 0) as F. unfold fair_length, knot in F. cbn [gknots nth] in F. rewrite Rminus_0_r in F. exact (F Hh). }
  split; [apply G, HT|]. intros i Hi. apply G, Hk, Hi.
Qed.

Lemma stored_double n knots cols : (0 < n)%nat -> (2 <= length knots)%nat -> StronglySorted Rlt knots -> nth 0 knots 0 = -1 -> nth (length knots - 1) knots 0 = 1 ->
  (forall i, (S i < length knots)%nat -> / 10 ^ 290 <= nth (S i) knots 0 - nth i knots 0) ->
  stored (/ 2 ^ 53) eta64 (VPoly (Geom n n (length knots - 1) knots (map rnd64 (diffs knots))) cols).
Proof.
  intros Hn Hl Hs H0 H1 Hd. unfold stored. cbn [vgeom gnseg gorder glen].
  assert (Le : forall i j, (i < j < length knots)%nat -> nth i knots 0 < nth j knots 0) by (intros i j Hij; apply (PPolyFacts.sorted_nth_lt _ i j Hs); lia).
  split; [|split; [exact H0|split; [exact H1|split; [|split; [exact Hn|reflexivity]]]]].
  - unfold geom_near, knot. cbn [gnseg gknots gdx]. rewrite map_length, diffs_length. split; [lia|]. split; [lia|]. split; [exact Hs|]. split; [lia|].
    intros i Hi. rewrite (nth_indep _ 0 (rnd64 0)) by (rewrite map_length, diffs_length; lia). rewrite map_nth, diffs_nth by lia.
    pose proof (proj1 rounding_double (nth (S i) knots 0 - nth i knots 0)) as A. pose proof (Le i (S i) ltac:(lia)) as P.
    revert A. generalize (/ 2 ^ 53) eta64. intros u e A. rewrite (Rabs_pos_eq (_ - _)) in A at 2 || idtac. rewrite (Rabs_pos_eq (nth (S i) knots 0 - nth i knots 0)) in A by lra. exact A.
  - intros i Hi. apply fair_double. unfold knot. cbn [gknots]. split; [apply Hd; lia|].
    assert (-1 <= nth i knots 0). { destruct i; [lra|]. rewrite <- H0. left. apply Le. lia. }
    assert (nth (S i) knots 0 <= 1). { rewrite <- H1. destruct (Nat.eq_dec (S i) (length knots - 1)) as [->|]; [lra|]. left. apply Le. lia. }
    apply Rle_trans with (10 ^ 1); [lra|]. apply Rle_pow; [lra|lia].
Qed.

(** * Short segments at low temperature *)
Definition thin_knots : list R := [-1; 1 - / 2 ^ 52; 1].
Definition thin_poly : vpoly := VPoly (Geom 1 1 2 thin_knots (map rnd64 (diffs thin_knots))) [Col (fun _ _ => 1) 0].
Definition wide_poly : vpoly := VPoly (Geom 1 1 1 [-1; 1] (map rnd64 (diffs [-1; 1]))) [Col (fun _ _ => 1) 0].
Definition thin_sve : sve_result := SVE thin_poly [1] wide_poly (Some (/ 2)).

Lemma p290 : / 10 ^ 290 <= / 2 ^ 52.
Proof. apply Rinv_le_contravar; [apply pow_lt; lra|]. apply Rle_trans with (10 ^ 52); [apply pow_incr; lra|apply Rle_pow; [lra|lia]]. Qed.

Lemma thin_near : expansion_near (/ 2 ^ 53) eta64 thin_sve.
Proof.
  pose proof p290 as P. assert (Q : 2 ^ 52 = 4503599627370496) by (cbn; lra). 
  assert (I : / 2 ^ 52 <= 1) by (rewrite Q; lra). assert (I0 : 0 < / 2 ^ 52) by (rewrite Q; lra).
  unfold expansion_near, thin_sve. cbn [su sv ss]. split; [|split; [|split; [reflexivity|split; [reflexivity|split; [discriminate|split]]]]].
  - apply (stored_double 1 thin_knots); cbn [thin_knots length nth Nat.sub]; try lia; try reflexivity.
    + unfold thin_knots. repeat constructor; lra.
    + unfold thin_knots. intros [|[|i]] Hi; cbn [nth]; try lra; lia.
  - apply (stored_double 1 [-1; 1]); cbn [length nth Nat.sub]; try lia; try reflexivity.
    + repeat constructor; lra.
    + intros [|i] Hi; cbn [nth length] in *; try lra; lia.
  - repeat constructor. lra.
  - repeat constructor.
Qed.

Definition cold : R := 3 * 2 ^ 29.
Lemma rnd_of m e x : x = IZR m * bpow radix2 e -> (Z.abs m < 2 ^ 53)%Z -> (-1074 <= e)%Z -> rnd64 x = x.
Proof. intros -> A B. apply RescaleIEEE.rnd_id, double_of; auto. Qed.

Lemma cold_knot : rnd64 (3 * 2 ^ 28 * (2 - / 2 ^ 52)) = cold - / 2 ^ 22.
Proof.
  set (x := 3 * 2 ^ 28 * (2 - / 2 ^ 52)).
  assert (Ex : x = cold - 3 / 4 * / 2 ^ 22) by (unfold x, cold; field).
  assert (Ec : cold = 1610612736) by (unfold cold; cbn; lra). assert (E22 : 2 ^ 22 = 4194304) by (cbn; lra).
  assert (M : mag radix2 x = 31%Z :> Z).
  { apply mag_unique. change (bpow radix2 (31 - 1)) with 1073741824. change (bpow radix2 31) with 2147483648. rewrite Ex, Ec, E22. rewrite Rabs_pos_eq; lra. }
  unfold rnd64, round, F2R, scaled_mantissa. cbn [Fnum Fexp]. assert (CE : Generic_fmt.cexp radix2 fexp64 x = (-22)%Z) by (unfold Generic_fmt.cexp; rewrite M; reflexivity). rewrite CE. change (- -22)%Z with 22%Z. change (bpow radix2 22) with 4194304. change (bpow radix2 (-22)) with (/ 4194304).
  rewrite (Znearest_imp _ _ (6755399441055744 - 1)%Z).
  - rewrite minus_IZR, Ec, E22. lra.
  - rewrite minus_IZR, Ex, Ec, E22. apply Rabs_lt. lra.
Qed.

Lemma cold_refused pw compute st wmax ker : st = "F"%string \/ st = "B"%string -> 0 <= wmax -> ker = None ->
  basis_init_rd rnd64 pw compute st cold wmax (Some (/ 2)) None ker (Some thin_sve) = Raise ValueError.
Proof.
  intros Hst Hw ->. assert (Ec : cold = 1610612736) by (unfold cold; cbn; lra).
  unfold basis_init_rd. rewrite (proj2 (Rltb_true 0 cold)) by (rewrite Ec; lra). rewrite (proj2 (Rleb_true 0 wmax)) by exact Hw. cbn [negb].
  unfold get_kernel_rd. replace (stat_in st) with true by (destruct Hst as [-> | ->]; reflexivity). cbn [negb bind].
  unfold part_rd. cbn [thin_sve ss filter]. assert (H2 : rnd64 (/ 2 * 1) = / 2) by (rewrite Rmult_1_r; apply (rnd_of 1 (-1)); [cbn; lra|lia|lia]).
  rewrite H2, (proj2 (Rleb_true (/ 2) 1)) by lra. cbn [length Z.of_nat Pos.of_succ_nat Z.eqb Pos.eqb bind]. cbn [Nat.ltb Nat.leb last bind].
  unfold rescaled_rd, poly_given_rd. cbn [su thin_sve thin_poly vgeom vcols gknots gnseg gdx glen map cdat csym thin_knots length Nat.eqb negb].
  destruct (negb (forallb _ _)); [reflexivity|].
  match goal with |- context [bind (if negb (_ && allclose_rd ?a ?b ?c) then _ else _) _] => assert (E : allclose_rd a b c = false) end.
  2: { rewrite E. rewrite andb_false_r. reflexivity. }
  unfold diffs, allclose_rd. cbn [map tl init map2 forallb combine fst snd]. apply andb_false_iff. right. rewrite andb_true_r.
  assert (Q : 2 ^ 52 = 4503599627370496) by (cbn; lra). assert (E28 : 2 ^ 28 = 268435456) by (cbn; lra). assert (E22 : 2 ^ 22 = 4194304) by (cbn; lra).
  assert (R1 : rnd64 (cold / 2) = 3 * 2 ^ 28). { replace (cold / 2) with (3 * 2 ^ 28) by (unfold cold; field). apply (rnd_of 3 28); [rewrite E28; cbn; lra|lia|lia]. }
  assert (R2 : rnd64 (1 - / 2 ^ 52 + 1) = 2 - / 2 ^ 52). { replace (1 - / 2 ^ 52 + 1) with (2 - / 2 ^ 52) by ring. apply (rnd_of (2 ^ 53 - 1) (-52)); [|lia|lia]. rewrite Q. change (bpow radix2 (-52)) with (/ 4503599627370496). change (2 ^ 53 - 1)%Z with 9007199254740991%Z. lra. }
  assert (R3 : rnd64 (1 + 1) = 2). { replace (1 + 1) with 2 by ring. apply (rnd_of 1 1); [cbn; lra|lia|lia]. }
  assert (R4 : rnd64 (1 - (1 - / 2 ^ 52)) = / 2 ^ 52). { replace (1 - (1 - / 2 ^ 52)) with (/ 2 ^ 52) by ring. apply (rnd_of 1 (-52)); [rewrite Q; change (bpow radix2 (-52)) with (/ 4503599627370496); lra|lia|lia]. }
  assert (R5 : rnd64 (3 * 2 ^ 28 * 2) = cold). { replace (3 * 2 ^ 28 * 2) with cold by (unfold cold; ring). apply (rnd_of 3 29); [rewrite Ec; cbn; lra|lia|lia]. }
  assert (R6 : rnd64 (3 * 2 ^ 28 * / 2 ^ 52) = 3 / 16777216). { apply eq_trans with (3 * 2 ^ 28 * / 2 ^ 52); [apply (rnd_of 3 (-24)); [|lia|lia]|]; rewrite E28, Q; [change (bpow radix2 (-24)) with (/ 16777216)|]; field. }
  assert (R7 : rnd64 (cold - (cold - / 2 ^ 22)) = / 4194304). { replace (cold - (cold - / 2 ^ 22)) with (/ 4194304) by (rewrite E22; ring). apply (rnd_of 1 (-22)); [change (bpow radix2 (-22)) with (/ 4194304); ring|lia|lia]. }
  assert (R8 : rnd64 (3 / 16777216 - / 4194304) = - / 16777216). { replace (3 / 16777216 - / 4194304) with (- / 16777216) by field. apply (rnd_of (-1) (-24)); [change (bpow radix2 (-24)) with (/ 16777216); ring|lia|lia]. }
  rewrite R1, R2, R3, R4, R5, R6, cold_knot, R7. unfold close_rd. rewrite R8, Rabs_Ropp, (Rabs_pos_eq (/ 16777216)), (Rabs_pos_eq (/ 4194304)) by lra.
  unfold Rleb. destruct (Rle_dec _ _) as [C|]; [exfalso|reflexivity].
  assert (S : forall x, / 10 ^ 20 <= x -> rnd64 x <= 2 * x).
  { intros x Hx. assert (P : 0 < / 10 ^ 20) by (apply Rinv_0_lt_compat, pow_lt; lra).
    assert (L : bpow radix2 (-1022) <= Rabs x).
    { rewrite Rabs_pos_eq by lra. apply Rle_trans with (/ 10 ^ 20); [|exact Hx]. apply Rle_trans with (bpow radix2 (- (200))); [apply bpow_le; lia|]. rewrite RescaleIEEE.bp by lia. apply Rinv_le_contravar; [apply pow_lt; lra|].
      change (Z.to_nat 200) with (10 * 20)%nat. rewrite (pow_mult 2 10 20). apply pow_incr. cbn. lra. }
    pose proof (RescaleIEEE.rnd_rel x L) as A. rewrite (Rabs_pos_eq x) in A by lra. apply Rabs_le_between in A. pose proof RescaleIEEE.u64_bounds. nra. }
  assert (P20 : 10 ^ 20 = 100000000000000000000) by (cbn; lra). rewrite P20 in S.
  assert (P8 : 10 ^ 8 = 100000000) by (cbn; lra). assert (P5 : 10 ^ 5 = 100000) by (cbn; lra). rewrite P8, P5 in C.
  pose proof (S (/ 100000000) ltac:(lra)) as S1. pose proof (S (/ 100000) ltac:(lra)) as S2.
  assert (LB : / 200000 <= rnd64 (/ 100000)).
  { apply Rle_trans with (rnd64 (IZR 1 * bpow radix2 (-17))); [rewrite RescaleIEEE.rnd_id by (apply double_of; lia); change (bpow radix2 (-17)) with (/ 131072); lra|].
    apply round_le; [apply FLT_exp_valid; reflexivity|apply valid_rnd_N|]. change (bpow radix2 (-17)) with (/ 131072). lra. }
  set (y := rnd64 (/ 100000)) in *. pose proof (S (y * / 4194304) ltac:(lra)) as S3.
  assert (N3 : 0 <= rnd64 (y * / 4194304)) by (apply (proj1 (proj2 rounding_double)); lra).
  assert (N1 : 0 <= rnd64 (/ 100000000)) by (apply (proj1 (proj2 rounding_double)); lra).
  assert (LB8 : / 200000000 <= rnd64 (/ 100000000)).
  { apply Rle_trans with (rnd64 (IZR 1 * bpow radix2 (-27))); [rewrite RescaleIEEE.rnd_id by (apply double_of; lia); change (bpow radix2 (-27)) with (/ 134217728); lra|].
    apply round_le; [apply FLT_exp_valid; reflexivity|apply valid_rnd_N|]. change (bpow radix2 (-27)) with (/ 134217728). lra. }
  pose proof (S (rnd64 (/ 100000000) + rnd64 (y * / 4194304)) ltac:(lra)) as S4. lra.
Qed.

Lemma rnd_diffs : map rnd64 (diffs thin_knots) = diffs thin_knots /\ map rnd64 (diffs [-1; 1]) = diffs [-1; 1].
Proof.
  assert (Q : 2 ^ 52 = 4503599627370496) by (cbn; lra). unfold diffs, thin_knots. cbn -[rnd64 Rminus Rinv pow IZR]. split.
  - f_equal; [|f_equal].
    + apply (rnd_of (2 ^ 53 - 1) (-52)); [|lia|lia]. rewrite Q. change (bpow radix2 (-52)) with (/ 4503599627370496). change (2 ^ 53 - 1)%Z with 9007199254740991%Z. lra.
    + apply (rnd_of 1 (-52)); [rewrite Q; change (bpow radix2 (-52)) with (/ 4503599627370496); lra|lia|lia].
  - f_equal. apply (rnd_of 1 1); [cbn; lra|lia|lia].
Qed.

Lemma thin_ok : sve_ok thin_sve.
Proof.
  pose proof thin_near as ((G1 & X1 & X2 & _) & (G2 & Y1 & Y2 & _) & Lu & Lv & Hs & P & N). pose proof (exactg_ok _ _ _ G1) as O1. pose proof (exactg_ok _ _ _ G2) as O2.
  destruct rnd_diffs as [E1 E2]. unfold sve_ok, fresh. unfold exactg in O1, O2. cbn [thin_sve su sv thin_poly wide_poly vgeom gorder glen gnseg gknots] in *. rewrite E1, E2.
  split; [split; [exact O1|split; [lia|reflexivity]]|]. split; [split; [exact O2|split; [lia|reflexivity]]|]. repeat (split; [assumption|]). assumption.
Qed.

Lemma cold_accepted compute st wmax : st = "F"%string \/ st = "B"%string -> 0 < wmax ->
  exists b, basis_init compute st cold wmax (Some (/ 2)) None None (Some thin_sve) = Ok b.
Proof.
  intros Hst Hw. assert (Ec : cold = 1610612736) by (unfold cold; cbn; lra).
  destruct (BasisOps.init_accepts compute st cold wmax (Some (/ 2)) None None thin_sve (/ 2)) as (b & H & _); [rewrite Ec; lra|exact Hw|exact Hst|auto|exact thin_ok|reflexivity|lra|auto|]. exists b. exact H.
Qed.

(** * A basis in doubles *)
Import PPolyExamples SVEPolicy.
Lemma unit_exact : unit_geom = Geom (glen unit_geom) (glen unit_geom) 1 [-1; 1] (map rnd64 (diffs [-1; 1])).
Proof. rewrite (proj2 rnd_diffs). unfold unit_geom, diffs. cbn. repeat f_equal; ring. Qed.

Lemma ex_near e : expansion_near (/ 2 ^ 53) eta64 (ex_sve e).
Proof.
  assert (P : / 10 ^ 290 <= 2). { apply Rle_trans with (/ 2 ^ 52); [apply p290|]. assert (Q : 2 ^ 52 = 4503599627370496) by (cbn; lra). rewrite Q. lra. }
  assert (S : stored (/ 2 ^ 53) eta64 ex_poly).
  { unfold ex_poly. rewrite unit_exact. apply (stored_double 3 [-1; 1]); cbn [length nth Nat.sub]; try lia; try reflexivity; [repeat constructor; lra|].
    intros [|i] Hi; cbn [nth length] in *; [lra|lia]. }
  unfold expansion_near, ex_sve. cbn [su sv ss]. split; [exact S|]. split; [exact S|]. split; [reflexivity|]. split; [reflexivity|]. split; [discriminate|]. split; repeat constructor; lra.
Qed.

Lemma unit_fair T : 1 <= T <= 10 -> fair_scale (/ 2 ^ 53) eta64 T unit_geom.
Proof.
  intros HT. assert (P : / 10 ^ 290 <= 1). { rewrite <- Rinv_1. apply Rinv_le_contravar; [lra|]. apply pow_R1_Rle. lra. }
  assert (Q : 100 <= 10 ^ 290). { apply Rle_trans with (10 ^ 2); [lra|]. apply Rle_pow; [lra|lia]. }
  apply fair_scale_double; [split; lra|]. intros [|i] Hi; [|cbn in Hi; lia]. unfold knot. cbn [unit_geom gknots nth]. split; lra.
Qed.
Lemma unit_tolerated u T sh : 0 <= u <= / 10 ^ 10 -> 0 <= sh <= 1 -> tolerated u T sh unit_geom.
Proof.
  intros Hu Hs [|i] Hi; [|cbn in Hi; lia]. left. unfold outer, knot. cbn [unit_geom gknots nth].
  assert (R : Rmax (Rabs (-1 + sh)) (Rabs (1 + sh)) <= 2) by (apply Rmax_lub; apply Rabs_le; lra).
  assert (R0 : 0 <= Rmax (Rabs (-1 + sh)) (Rabs (1 + sh))) by (eapply Rle_trans; [apply Rabs_pos|apply Rmax_l]).
  set (m := Rmax _ _) in *. assert (u * m <= / 10 ^ 10 * 2) by (apply Rmult_le_compat; lra). assert (P : 10 ^ 6 = 1000000) by (cbn; lra). assert (P' : 10 ^ 10 = 10000000000) by (cbn; lra). rewrite P' in *. rewrite P. lra.
Qed.

Lemma ex_double compute : exists b, basis_init_rd rnd64 powerRZ compute "F" 2 3 (Some (/ 10)) None None (Some (ex_sve (/ 10))) = Ok b /\
  built_rd (/ 2 ^ 53) eta64 rnd64 powerRZ compute b /\ length (bs b) = 2%nat /\ gxmin (vgeom (bu b)) = 0 /\ gxmax (vgeom (bu b)) = 2 /\
  fair_scale (/ 2 ^ 53) eta64 (bbeta b / 2) (vgeom (su (bsve b))) /\ fair_scale (/ 2 ^ 53) eta64 (bwmax b) (vgeom (sv (bsve b))) /\
  forall t old, 0 <= t <= 2 -> exists ys y0 x, vcall_rd old rnd64 (bu b) t = Ok ys /\ nth_error ys 0 = Some y0 /\ Rabs (x - (t - 1)) <= / 10 ^ 15 /\ Rabs (y0 - x ^ 2) <= / 10 ^ 10.
Proof.
  destruct (small_double 0 ltac:(lra)) as (_ & _ & E0 & E1).
  assert (P53 : 2 ^ 53 = 9007199254740992) by (cbn; lra).
  assert (E3 : eta64 <= / 10 ^ 300). { assert (P : 0 < 10 ^ 300) by (apply pow_lt; lra). apply (Rmult_le_reg_r (10 ^ 300)); [exact P|]. rewrite Rinv_l by lra. eapply Rle_trans; [exact E1|]. rewrite P53. lra. }
  assert (E12 : eta64 <= / 10 ^ 40). { eapply Rle_trans; [exact E3|]. apply Rinv_le_contravar; [apply pow_lt; lra|]. apply Rle_pow; [lra|lia]. }
  clear E1 E3. assert (P40 : / 10 ^ 40 <= / 10 ^ 12) by (apply Rinv_le_contravar; [apply pow_lt; lra|apply Rle_pow; [lra|lia]]).
  assert (P12 : / 10 ^ 12 <= / 10) by (apply Rinv_le_contravar; [lra|]; apply Rle_trans with (10 ^ 1); [lra|apply Rle_pow; [lra|lia]]).
  assert (U : 0 < / 2 ^ 53 <= / 10000) by (rewrite P53; lra). assert (U10 : 0 <= / 2 ^ 53 <= / 10 ^ 10) by (assert (P : 10 ^ 10 = 10000000000) by (cbn; lra); rewrite P53, P; lra).
  assert (F1 : fair_scale (/ 2 ^ 53) eta64 (2 / 2) unit_geom) by (apply unit_fair; lra). assert (F3 : fair_scale (/ 2 ^ 53) eta64 3 unit_geom) by (apply unit_fair; lra).
  destruct (rd_succeeds (/ 2 ^ 53) eta64 rnd64 powerRZ compute "F" 2 3 (/ 10) None (ex_sve (/ 10))) as (b & H & Er & Eb & Ew & Es & Kl); auto; try lra.
  { apply rounding_double. } { apply ex_near. } { apply unit_tolerated; [exact U10|lra]. } { apply unit_tolerated; [exact U10|lra]. } { cbn [ex_sve ss nth]. lra. }
  assert (Hb : built_rd (/ 2 ^ 53) eta64 rnd64 powerRZ compute b). { exists "F"%string, 2, 3, (Some (/ 10)), None, None, (Some (ex_sve (/ 10))). split; [exact H|]. rewrite Er. split; [apply ex_near|lra]. }
  exists b. split; [exact H|]. split; [exact Hb|].
  assert (Ln : length (bs b) = 2%nat).
  { destruct (rd_truncation (/ 2 ^ 53) eta64 rnd64 powerRZ compute _ _ _ _ _ _ _ b rounding_double H) as (_ & _ & T); [rewrite Er; apply ex_near|lra|auto|].
    rewrite Er in T. cbn [ex_sve ss length] in T. destruct (rd_sizes _ _ _ _ _ b Hb) as (S & _). rewrite Er in S. cbn [ex_sve ss length] in S.
    destruct (Nat.eq_dec (length (bs b)) 2) as [E|N]; [exact E|exfalso]. destruct (T 1%nat ltac:(lia)) as [C|C]; [|discriminate]. cbn [nth] in C. lra. }
  split; [exact Ln|].
  destruct (double_ends powerRZ compute b Hb) as (G1 & G2 & _ & _).
  { rewrite Eb. replace 2 with (IZR 1 * bpow radix2 1) by (cbn; lra). apply double_of; lia. } { rewrite Ew. replace 3 with (IZR 3 * bpow radix2 0) by (cbn; lra). apply double_of; lia. }
  { rewrite Eb. change 2 with (bpow radix2 1). apply bpow_le. lia. }
  rewrite Eb in G2. rewrite Eb, Ew, Er. split; [exact G1|]. split; [exact G2|]. split; [exact F1|]. split; [exact F3|].
  intros t old Ht. destruct (proj1 (rd_covers _ _ _ _ _ b Hb) t) as [i Hi]; [rewrite G1, G2; exact Ht|].
  assert (i = 0%nat). { destruct (built_rd_inv _ _ _ _ _ b Hb) as (q & e & ms & lam & f & _ & _ & _ & _ & _ & _ & Eu & _). rewrite Eu, Er in Hi. destruct Hi as (Hi & _). cbn in Hi. lia. } subst i.
  assert (O1 : outer 1 unit_geom 0 = 2). { unfold outer, knot. cbn [unit_geom gknots nth]. replace (-1 + 1) with 0 by ring. replace (1 + 1) with 2 by ring. rewrite Rabs_R0, (Rabs_pos_eq 2) by lra. apply Rmax_right. lra. }
  assert (SL : shifted_loss 1 unit_geom 0 = 23760). { unfold shifted_loss. rewrite O1. unfold knot. cbn [unit_geom gknots nth glen]. cbn [INR]. field. }
  destruct (rd_u_val (/ 2 ^ 53) eta64 rnd64 rounding_double U E0 powerRZ compute b Hb old 0 t) as (x & ys & A & Bx & C & D & F).
  { rewrite Eb, Er. exact F1. } { exact Hi. } { rewrite Er. change (vgeom (su (ex_sve (/ 10)))) with unit_geom. rewrite SL, P53. lra. }
  rewrite Ln in D. rewrite Er, Eb in *. change (vgeom (su (ex_sve (/ 10)))) with unit_geom in *.
  destruct ys as [|y0 ys']; [discriminate|]. exists (y0 :: ys'), y0, x. split; [exact C|]. split; [reflexivity|]. split.
  - replace (t - 1) with (2 * t / 2 - 1) by field. eapply Rle_trans; [exact A|]. rewrite O1, P53. assert (P : 10 ^ 15 = 1000000000000000) by (cbn; lra). rewrite P. lra.
  - specialize (F 0%nat square_col y0 eq_refl eq_refl).
    assert (X : -1 <= x <= 1) by exact Bx. assert (V : seg_fun unit_geom square_col 0 x = x ^ 2). { rewrite <- square_value by exact X. symmetry. apply (cval_seg unit_geom unit_geom_ok square_col 0); [cbn; lia|unfold knot; cbn [unit_geom gknots nth]; lra|unfold knot, gxmax; simpl; destruct (Rlt_dec x 1); [auto|right; split; [auto|lra]]]. }
    replace (2 / 2) with 1 in F by field. rewrite V, sqrt_1, Rmult_1_l in F. eapply Rle_trans; [exact F|].
    unfold moved_error. rewrite SL. unfold knot. cbn [unit_geom gknots nth glen sumn square_col cdat]. replace (2 / (1 * (1 - -1))) with 1 by field. rewrite sqrt_1.
    rewrite (Rabs_pos_eq (1 / 3)), (Rabs_pos_eq (2 / 3)), Rabs_R0 by lra.
    assert (PE : eta64 / / 2 ^ 53 <= 1). { unfold Rdiv. rewrite Rinv_inv, P53. assert (P : 10 ^ 40 = 10000000000000000000000000000000000000000) by (cbn; lra). rewrite P in E12. lra. }
    assert (P : 10 ^ 40 = 10000000000000000000000000000000000000000) by (cbn; lra). rewrite P in E12.
    assert (PE0 : 0 <= eta64 / / 2 ^ 53) by (apply Rmult_le_pos; [exact E0|]; rewrite Rinv_inv, P53; lra).
    assert (P' : 10 ^ 10 = 10000000000) by (cbn; lra). rewrite P'. revert PE PE0 E12. rewrite P53. generalize (eta64 / / 9007199254740992) eta64. intros a b0 PE PE0 E12. lra.
Qed.
