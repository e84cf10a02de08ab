(** A basis computed in rounded arithmetic and the one that exact arithmetic makes of
    the same polynomials. *)
From Coq Require Import String ZArith Arith Bool Reals Lra Lia Psatz.
From Coquelicot Require Import Coquelicot.
From Coq Require Import List Sorting.Sorted Sorting.Permutation.
From Verif.Model Require Import Base Util Num Gauss Poly PolyIEEE FT FTIEEE SVE Basis Kernel KernelIEEE GaussIEEE Compute Whole SVEIEEE BasisIEEE WholeIEEE.
From Verif.Spec Require Import SGauss SPoly SFT SSVE SBasis SKernel SCompute SSingular SWhole SNear SComputed SKernelIEEE SGaussIEEE SPolyIEEE SFTIEEE SRounded SSVEIEEE SRoundedCompute SBasisIEEE SWholeIEEE.
From Verif.Proofs Require Import BaseFacts SumFacts PPolyFacts SVEFacts BasisFacts BasisInit BasisProps BasisPhys WholeFacts ComputeNodes ComputeError ComputeFull ComputedBasis ComputeRoundSymm BasisRound BasisRoundProps BasisRoundMore WholeRoundExp.
Import ListNotations.
Open Scope R_scope.
Notation length := List.length.

Lemma ideal_fresh u eta p : stored u eta p -> fresh (ideal p).
Proof.
  intros ((G1 & G2 & G3 & _) & _ & _ & _ & G5 & G6). split; [|split; [exact G5|exact G6]]. cbn [ideal vgeom]. unfold geom_ok, ideal_geom. cbn [gnseg gknots gdx].
  rewrite diffs_length. split; [exact G1|]. split; [exact G2|]. split; [exact G3|]. split; [lia|]. intros i Hi. apply diffs_nth. lia.
Qed.

Lemma ideal_ok u eta r : expansion_near u eta r -> sve_ok (ideal_sve r).
Proof.
  intros (Su & Sv & Lu & Lv & Hs & Hp & Hm). split; [apply (ideal_fresh u eta), Su|]. split; [apply (ideal_fresh u eta), Sv|].
  destruct Su as (_ & U1 & U2 & _). destruct Sv as (_ & V1 & V2 & _). cbn [ideal_sve su sv ss ideal vgeom vcols]. unfold gxmin, gxmax, ideal_geom in *. cbn [gknots gnseg].
  repeat (split; [assumption|]). exact Hm.
Qed.

Lemma nabove_all s : Forall (fun x => 0 < x) s -> nabove 0 s = length s.
Proof.
  intros H. unfold nabove. f_equal. rewrite Rmult_0_l. induction H as [|x l P F IH]; [reflexivity|]. cbn [filter]. rewrite (proj2 (Rleb_true 0 x)) by lra. now rewrite IH.
Qed.

Section Version.
Variables (u eta : R) (rd : R -> R) (pw : R -> Z -> R) (compute compute' : kern -> option R -> res sve_result) (b : basis).
Hypothesis Hb : built_rd u eta rd pw compute b.

Lemma version_exists : exists b0, exact_version compute' b b0.
Proof.
  destruct (built_rd_inv u eta rd pw compute b Hb) as (q & e & ms & lam & f & Pb & Pw & Ex & Hn & _ & _ & _ & _ & _ & _ & _ & _ & Q & _).
  pose proof (ideal_ok _ _ _ Ex) as Ok0. destruct Ex as (_ & _ & _ & _ & _ & Hp & _).
  unfold exact_version. set (k := Kern _ _). set (n := length (bs b)) in *.
  destruct (basis_init_ok compute' (bstat b) (bbeta b) (bwmax b) (Some 0) (Some (PyInt (Z.of_nat n))) (Some k) (Some (ideal_sve (bsve b))) k (ideal_sve (bsve b)) (bbeta b * bwmax b) q 0 n) as (f0 & f' & _ & _ & E); auto.
  - unfold get_kernel. assert (St : stat_in (bstat b) = true). { apply stat_cases. unfold even_odd in Q. destruct (String.eqb_spec (bstat b) "F"); [auto|]. destruct (String.eqb_spec (bstat b) "B"); [auto|discriminate]. }
    rewrite St. cbn [negb k klam]. unfold lam_close. rewrite (proj2 (Rleb_true _ _)); [reflexivity|]. rewrite Rminus_diag_eq by reflexivity. rewrite Rabs_R0. apply Rmult_le_pos; [|apply Rabs_pos].
    apply Rmult_le_pos; [lra|]. left. apply Rinv_0_lt_compat, pow_lt. lra.
  - unfold part_size. destruct (Z.ltb_spec (Z.of_nat n) 0); [lia|]. cbn [ideal_sve ss]. rewrite nabove_all by exact Hp. lia.
  - lia.
  - eauto.
Qed.

Variable b0 : basis.
Hypothesis H0 : exact_version compute' b b0.

Lemma version_inv : built compute' b0 /\ bstat b0 = bstat b /\ bbeta b0 = bbeta b /\ bwmax b0 = bwmax b /\ kyp (bkernel b0) = kyp (bkernel b) /\
  bsve b0 = ideal_sve (bsve b) /\ bsize b0 = length (bs b).
Proof.
  destruct (built_rd_inv u eta rd pw compute b Hb) as (q & e & ms & lam & f & Pb & Pw & Ex & Hn & _). pose proof (ideal_ok _ _ _ Ex) as Ok0. destruct Ex as (_ & _ & _ & _ & _ & Hp & _).
  unfold exact_version in H0.
  assert (Es : bsve b0 = ideal_sve (bsve b)).
  { pose proof H0 as H. unfold basis_init in H. destruct (negb _); [discriminate|]. destruct (negb _); [discriminate|]. destruct (get_kernel _ _ _) as [k|]; [|discriminate]. cbn [bind] in H.
    destruct (part _ _ _) as [[[u' s'] v']|]; [|discriminate]. cbn [bind] in H. destruct (match s' with [] => _ | _ => _ end) as [acc|]; [|discriminate]. cbn [bind] in H.
    destruct (rescaled u' _ _) as [u''|]; [|discriminate]. cbn [bind] in H. destruct (rescaled v' _ _) as [v''|]; [|discriminate]. cbn [bind] in H. destruct (klam k) as [l|]; [|discriminate].
    destruct (even_odd _); [|discriminate]. cbn [bind] in H. destruct (ft_init _ _ _ _) as [f1|]; [|discriminate]. cbn [bind] in H. destruct (ft_slice _ _) as [f2|]; [|discriminate]. cbn [bind] in H. injection H as <-. reflexivity. }
  assert (B : built compute' b0). { unfold built. do 7 eexists. split; [exact H0|]. split; [rewrite Es; exact Ok0|exact Pw]. }
  split; [exact B|].
  destruct (basis_init_inv _ _ _ _ _ _ _ _ _ H0) as (k & r & lam0 & q0 & e0 & n & f0 & f' & _ & Gk & Er & _ & Ee & _ & En & Hl & _ & _ & _ & _ & E); [rewrite Es; exact Ok0|exact Pw|].
  unfold eff_eps in Ee. injection Ee as <-. injection Er as <-. set (nb := length (bs b)) in *.
  assert (En' : n = nb). { rewrite En. unfold part_size. destruct (Z.ltb_spec (Z.of_nat nb) 0); [lia|]. cbn [ideal_sve ss]. rewrite nabove_all by exact Hp. lia. }
  assert (Ek : k = Kern (Some (bbeta b * bwmax b)) (kyp (bkernel b))).
  { unfold get_kernel in Gk. destruct (negb _); [discriminate|]. cbn [klam] in Gk. destruct (lam_close _ _); [|discriminate]. injection Gk as <-. reflexivity. }
  subst b0. cbn [the_basis bstat bbeta bwmax bkernel bsve]. rewrite Ek. cbn [kyp]. repeat (split; [reflexivity|]). unfold bsize, the_basis. cbn [bs]. rewrite map_length, firstn_length_le; [exact En'|lia].
Qed.

Hypothesis Hrd : rounding u eta rd.
Hypothesis Hu : 0 < u <= / 10000.
Hypothesis He : 0 <= eta.

Lemma version_singular ep l : power_near ep pw -> 0 <= ep <= / 100 ->
  1000 * eta <= u * (bbeta b / 2) -> 1000 * eta <= u * (bbeta b / 2 * bwmax b) -> 1000 * eta <= u * sqrt (bbeta b / 2 * bwmax b) ->
  1000 * eta <= u * (sqrt (bbeta b / 2 * bwmax b) * powerRZ (bwmax b) (- kyp (bkernel b))) -> (l < length (bs b))%nat ->
  Rabs (nth l (bs b) 0 - nth l (bs b0) 0) <= (6 * u + ep) * nth l (bs b0) 0 + eta.
Proof.
  intros A1 A2 A3 A4 A5 A6 Hl. destruct version_inv as (B & _ & Eb & Ew & Ek & Es & En).
  pose proof (rd_singular u eta rd Hrd Hu He pw compute b Hb ep l A1 A2 A3 A4 A5 A6 Hl) as H. cbv zeta in H.
  rewrite (s_from compute' b0 B) by lia. rewrite Eb, Ew, Ek, Es. exact H.
Qed.

Lemma scaled_seg g c a T i x : geom_ok g -> 0 < T -> (i < gnseg g)%nat ->
  seg_fun (scaled_geom a T g) c i (T * x + a) = sqrt (/ T) * seg_fun g c i x.
Proof.
  intros (_ & L & S & _) HT Hi. unfold seg_fun. rewrite !scaled_knot by lia. cbn [scaled_geom glen].
  assert (P : knot g i < knot g (Datatypes.S i)) by (unfold knot; apply (PPolyFacts.sorted_nth_lt _ i (Datatypes.S i) S); lia).
  replace (T * knot g (Datatypes.S i) + a - (T * knot g i + a)) with (T * (knot g (Datatypes.S i) - knot g i)) by ring.
  replace (2 / (T * (knot g (Datatypes.S i) - knot g i))) with (/ T * (2 / (knot g (Datatypes.S i) - knot g i))) by (field; split; lra).
  rewrite sqrt_mult_alt by (left; apply Rinv_0_lt_compat; lra). rewrite Rmult_assoc. do 2 f_equal. apply sumn_ext. intros k _. do 2 f_equal. field. split; lra.
Qed.

Lemma version_u old i t : fair_scale u eta (bbeta b / 2) (vgeom (su (bsve b))) -> in_segment (vgeom (bu b)) i t -> shifted_loss 1 (vgeom (su (bsve b))) i * u <= 1 ->
  exists t' ys, Rabs (t' - t) <= 16 / 10 * (u * (bbeta b * outer 1 (vgeom (su (bsve b))) i)) /\
    knot (vgeom (bu b0)) i <= t' <= knot (vgeom (bu b0)) (S i) /\
    vcall_rd old rd (bu b) t = Ok ys /\ length ys = length (bs b) /\
    forall l c y, nth_error (vcols (bu b0)) l = Some c -> nth_error ys l = Some y ->
      Rabs (y - seg_fun (vgeom (bu b0)) c i t') <= moved_error u eta (bbeta b / 2) 1 (vgeom (su (bsve b))) c i.
Proof.
  intros Hf Hi Hl. destruct (rd_u_val u eta rd Hrd Hu He pw compute b Hb old i t Hf Hi Hl) as (x & ys & A1 & A2 & A3 & A4 & A5).
  destruct version_inv as (B & _ & Eb & Ew & Ek & Es & En). destruct (built_rd_inv u eta rd pw compute b Hb) as (q & e & ms & lam & f & Pb & Pw & Ex & Hn & _ & _ & Eu & _).
  set (g := vgeom (su (bsve b))) in *. assert (Gi : (i < gnseg g)%nat). { destruct Hi as (Hi & _). rewrite Eu in Hi. exact Hi. }
  assert (F : geom_ok (ideal_geom g)) by apply (ideal_fresh u eta (su (bsve b))), Ex.
  assert (Eu0 : bu b0 = VPoly (scaled_geom (bbeta b / 2) (bbeta b / 2) (ideal_geom g)) (firstn (length (bs b)) (vcols (su (bsve b))))).
  { rewrite (bu_eq compute' b0 B). rewrite Eb, Es, En. reflexivity. }
  assert (Kn : forall j, (j <= gnseg g)%nat -> knot (vgeom (bu b0)) j = bbeta b / 2 * knot g j + bbeta b / 2).
  { intros j Hj. rewrite Eu0. cbn [vgeom]. destruct F as (_ & L & _). rewrite scaled_knot by (cbn [ideal_geom gknots gnseg] in *; lia). reflexivity. }
  exists (bbeta b / 2 * x + bbeta b / 2), ys. split; [|split; [|split; [exact A3|split; [exact A4|]]]].
  - replace (bbeta b / 2 * x + bbeta b / 2 - t) with (bbeta b / 2 * (x - (2 * t / bbeta b - 1))) by (field; lra). rewrite Rabs_mult, (Rabs_pos_eq (bbeta b / 2)) by lra.
    apply (Rmult_le_compat_l (bbeta b / 2)) in A1; [|lra]. lra.
  - rewrite !Kn by lia. split; nra.
  - intros l c y Hc Hy. rewrite Eu0 in Hc |- *. cbn [vgeom vcols] in *. assert (Hll : (l < length (bs b))%nat) by (rewrite <- A4; apply nth_error_Some; congruence).
    rewrite nth_error_firstn in Hc by exact Hll. rewrite scaled_seg by (auto; lra). replace (/ (bbeta b / 2)) with (2 / bbeta b) by (field; lra). apply (A5 l c y Hc Hy).
Qed.

Lemma version_v old i w : fair_scale u eta (bwmax b) (vgeom (sv (bsve b))) -> in_segment (vgeom (bv b)) i w -> shifted_loss 0 (vgeom (sv (bsve b))) i * u <= 1 ->
  exists w' ys, Rabs (w' - w) <= 32 / 10 * (u * (bwmax b * outer 0 (vgeom (sv (bsve b))) i)) /\
    knot (vgeom (bv b0)) i <= w' <= knot (vgeom (bv b0)) (S i) /\
    vcall_rd old rd (bv b) w = Ok ys /\ length ys = length (bs b) /\
    forall l c y, nth_error (vcols (bv b0)) l = Some c -> nth_error ys l = Some y ->
      Rabs (y - seg_fun (vgeom (bv b0)) c i w') <= moved_error u eta (bwmax b) 0 (vgeom (sv (bsve b))) c i.
Proof.
  intros Hf Hi Hl. destruct (rd_v_val u eta rd Hrd Hu He pw compute b Hb old i w Hf Hi Hl) as (x & ys & A1 & A2 & A3 & A4 & A5).
  destruct version_inv as (B & _ & Eb & Ew & Ek & Es & En). destruct (built_rd_inv u eta rd pw compute b Hb) as (q & e & ms & lam & f & Pb & Pw & Ex & Hn & _ & _ & _ & _ & Ev & _).
  set (g := vgeom (sv (bsve b))) in *. assert (Gi : (i < gnseg g)%nat). { destruct Hi as (Hi & _). rewrite Ev in Hi. exact Hi. }
  assert (F : geom_ok (ideal_geom g)) by apply (ideal_fresh u eta (sv (bsve b))), Ex.
  assert (Ev0 : bv b0 = VPoly (scaled_geom 0 (bwmax b) (ideal_geom g)) (firstn (length (bs b)) (vcols (sv (bsve b))))).
  { rewrite (bv_eq compute' b0 B). rewrite Ew, Es, En. reflexivity. }
  assert (Kn : forall j, (j <= gnseg g)%nat -> knot (vgeom (bv b0)) j = bwmax b * knot g j + 0).
  { intros j Hj. rewrite Ev0. cbn [vgeom]. destruct F as (_ & L & _). rewrite scaled_knot by (cbn [ideal_geom gknots gnseg] in *; lia). reflexivity. }
  exists (bwmax b * x + 0), ys. split; [|split; [|split; [exact A3|split; [exact A4|]]]].
  - replace (bwmax b * x + 0 - w) with (bwmax b * (x - w / bwmax b)) by (field; lra). rewrite Rabs_mult, (Rabs_pos_eq (bwmax b)) by lra.
    apply (Rmult_le_compat_l (bwmax b)) in A1; [|lra]. lra.
  - rewrite !Kn by lia. split; nra.
  - intros l c y Hc Hy. rewrite Ev0 in Hc |- *. cbn [vgeom vcols] in *. assert (Hll : (l < length (bs b))%nat) by (rewrite <- A4; apply nth_error_Some; congruence).
    rewrite nth_error_firstn in Hc by exact Hll. rewrite scaled_seg by (auto; lra). rewrite sqrt_inv. apply (A5 l c y Hc Hy).
Qed.
End Version.
