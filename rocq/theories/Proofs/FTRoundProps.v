(** Proofs of C97. *)
From Coq Require Import Reals ZArith Arith Bool Lra Lia Psatz.
From Flocq Require Import Core.
From Coquelicot Require Import Coquelicot.
From Coq Require Import List Sorting.Sorted.
From Verif.Model Require Import Base Util Num IEEE Poly FT FTIEEE.
From Verif.Spec Require Import SPoly SFT SKernelIEEE SGaussIEEE SPolyIEEE SSamplingIEEE SSVEIEEE SFTIEEE.
From Verif.Proofs Require Import BaseFacts SumFacts LegFacts PPolyFacts GaussRound BesselBounds PolyRound FTFacts FTModel FTCall LstsqFacts DLRProps FTRound FTRoundSum.
From Verif.Proofs Require DotRound.
Import ListNotations.
Open Scope R_scope.
Notation length := List.length.

(** * The call *)
Definition rd_value rd F (model : nat -> Z -> C) (f : ft) (j l : nat) (c : col) (n : Z) : C :=
  if use_asymp f n then model l n else unl_entry_rd rd F (fgeom f) c j l n.
Definition rd_rows rd F model (f : ft) (ns : list Z) : list (list C) :=
  map (fun lc => map (fun jn => rd_value rd F model f (fst jn) (fst lc) (snd lc) (snd jn)) (combine (seq 0 (length ns)) ns))
      (combine (seq 0 (length (fcols f))) (fcols f)).
Lemma unl_inner_rd_ok rd F g cols ns : (0 < gorder g)%nat -> (0 < gnseg g)%nat -> glen g = gorder g ->
  unl_inner_rd rd F g cols ns = Ok (map (fun lc => map (fun jn => unl_entry_rd rd F g (snd lc) (fst jn) (fst lc) (snd jn)) (combine (seq 0 (length ns)) ns)) (combine (seq 0 (length cols)) cols)).
Proof.
  intros Ho Hs Hl. unfold unl_inner_rd. rewrite Hl.
  assert (Hn : (gorder g * gnseg g <> 0)%nat) by lia.
  destruct (Nat.eqb_spec (gorder g * gnseg g) 0); [contradiction|].
  replace (gorder g * gnseg g * length cols)%nat with (length cols * (gorder g * gnseg g))%nat by ring.
  rewrite Nat.mod_mul, Nat.div_mul by auto. cbn [negb orb Nat.eqb]. rewrite Nat.eqb_refl. reflexivity.
Qed.
Lemma combine_seq_map {A B} (h : nat * A -> B) (l : list A) : forall s,
  combine (seq s (length l)) (map h (combine (seq s (length l)) l)) = map (fun p => (fst p, h p)) (combine (seq s (length l)) l).
Proof. induction l as [|a l IH]; intros s; [reflexivity|]. cbn [length seq combine map fst]. f_equal. apply IH. Qed.
Lemma combine_map_snd {A B} (h : nat * A -> B) (l : list A) : forall s,
  combine l (map h (combine (seq s (length l)) l)) = map (fun p => (snd p, h p)) (combine (seq s (length l)) l).
Proof. induction l as [|a l IH]; intros s; [reflexivity|]. cbn [length seq combine map snd]. f_equal. apply IH. Qed.
Lemma call_rd_ok rd F model f ns : (0 < gorder (fgeom f))%nat -> (0 < gnseg (fgeom f))%nat -> glen (fgeom f) = gorder (fgeom f) ->
  Forall (freq_ok (ffreq f)) ns -> ft_call_rd rd F model f ns = Ok (rd_rows rd F model f ns).
Proof.
  intros Ho Hs Hl Hf. unfold ft_call_rd. rewrite (proj1 (check_freq _ _) Hf). cbn [bind].
  rewrite unl_inner_rd_ok by auto. cbn [bind]. f_equal. unfold rd_rows. rewrite map_length, combine_length, seq_length, Nat.min_id.
  rewrite combine_seq_map, map_map. apply map_ext. intros [l c]. cbn [fst snd]. rewrite combine_map_snd, map_map. apply map_ext. intros [j n]. reflexivity.
Qed.
Lemma call_rd_freq rd F model f ns : ~ Forall (freq_ok (ffreq f)) ns -> ft_call_rd rd F model f ns = Raise ValueError.
Proof. intros H. unfold ft_call_rd. rewrite (proj2 (check_freq _ _) H). reflexivity. Qed.
Lemma call_rd_iff rd F model f ns : (0 < gorder (fgeom f))%nat -> (0 < gnseg (fgeom f))%nat -> glen (fgeom f) = gorder (fgeom f) ->
  (Forall (freq_ok (ffreq f)) ns -> exists M, ft_call_rd rd F model f ns = Ok M /\ length M = length (fcols f) /\ Forall (fun row => length row = length ns) M) /\
  (~ Forall (freq_ok (ffreq f)) ns -> ft_call_rd rd F model f ns = Raise ValueError).
Proof.
  intros Ho Hs Hl. split; [|apply call_rd_freq]. intros HF. exists (rd_rows rd F model f ns). split; [apply call_rd_ok; auto|].
  unfold rd_rows. split.
  - rewrite map_length, combine_length, seq_length. lia.
  - apply Forall_forall. intros row Hr. apply in_map_iff in Hr. destruct Hr as (x & <- & _). rewrite map_length, combine_length, seq_length. lia.
Qed.
Lemma freq_dec q ns : {Forall (freq_ok q) ns} + {~ Forall (freq_ok q) ns}.
Proof. apply Forall_dec. intros z. unfold freq_ok. destruct q; [left; exact I|apply bool_dec|apply bool_dec]. Qed.
Lemma call_rd_entry rd F model f ns M l c j n : (0 < gorder (fgeom f))%nat -> (0 < gnseg (fgeom f))%nat -> glen (fgeom f) = gorder (fgeom f) ->
  ft_call_rd rd F model f ns = Ok M -> nth_error (fcols f) l = Some c -> nth_error ns j = Some n ->
  entry M l j = Some (rd_value rd F model f j l c n).
Proof.
  intros Ho Hs Hl Hc El En. destruct (freq_dec (ffreq f) ns) as [HF|HF]; [|rewrite call_rd_freq in Hc by auto; discriminate].
  rewrite call_rd_ok in Hc by auto. injection Hc as <-.
  unfold entry, rd_rows. rewrite nth_error_map, nth_error_combine_seq, El. cbn [option_map fst snd].
  rewrite nth_error_map, nth_error_combine_seq, En. reflexivity.
Qed.

(** * Exact arithmetic *)
Lemma dxsum_id g i : dxsum_rd (fun x => x) g i = dxsum g i.
Proof. unfold dxsum. induction i as [|i IH]; [cbn; ring|]. cbn [dxsum_rd]. rewrite IH, (sumn_S (S i)). reflexivity. Qed.
Lemma dxsum_rev_id g i : (i < gnseg g)%nat -> dxsum_rev_rd (fun x => x) g (gnseg g - 1 - i) = dxsum_rev g i.
Proof.
  intros Hi. unfold dxsum_rev.
  assert (H : forall k, (k < gnseg g)%nat -> dxsum_rev_rd (fun x => x) g k = sumn (S k) (fun j => nth (gnseg g - 1 - j) (gdx g) 0)).
  { induction k as [|k IH]; intros Hk; [cbn; rewrite Nat.sub_0_r; ring|]. cbn [dxsum_rev_rd]. rewrite IH by lia. rewrite (sumn_S (S k)). reflexivity. }
  rewrite H by lia. replace (S (gnseg g - 1 - i)) with (gnseg g - i)%nat by lia. rewrite sumn_rev. apply sumn_ext. intros j Hj. f_equal. lia.
Qed.
Lemma tnl_id l w : get_tnl_rd exact_library l w = get_tnl l w.
Proof. unfold get_tnl_rd, get_tnl. cbn [exact_library f_mul f_jn]. rewrite Cmult_assoc. reflexivity. Qed.
Lemma phase_id g n i : (i < gnseg g)%nat -> phase_stable_rd (fun x => x) exact_library g n i = phase_stable g n i.
Proof.
  intros Hi. unfold phase_stable_rd, phase_stable, shift_xmid_rd, shift_xmid. cbv zeta. rewrite dxsum_id, dxsum_rev_id by auto. reflexivity.
Qed.
Lemma entry_id g c j l n : unl_entry_rd (fun x => x) exact_library g c j l n = unl_entry g c n.
Proof.
  unfold unl_entry_rd, unl_entry. cbn [exact_library f_dot]. rewrite map_length.
  set (h := fun pi : nat * nat => Cmult (t_pin_rd (fun x => x) exact_library g n (fst pi) (snd pi)) (RtoC (data_sc_rd (fun x => x) g c (fst pi) (snd pi)))).
  transitivity (csumn (length (pairs g)) (fun k => h (nth k (pairs g) (0, 0)%nat))).
  { apply csumn_ext. intros k Hk. unfold h. f_equal.
    - rewrite (nth_indep _ _ (t_pin_rd (fun x => x) exact_library g n (fst (0, 0)%nat) (snd (0, 0)%nat))) by (rewrite map_length; exact Hk).
      apply (map_nth (fun pi => t_pin_rd (fun x => x) exact_library g n (fst pi) (snd pi))).
    - rewrite (nth_indep _ _ (RtoC (data_sc_rd (fun x => x) g c (fst (0, 0)%nat) (snd (0, 0)%nat)))) by (rewrite map_length; exact Hk).
      apply (map_nth (fun pi => RtoC (data_sc_rd (fun x => x) g c (fst pi) (snd pi)))). }
  unfold pairs. rewrite (csumn_pairs (gorder g) (gnseg g) h). apply csumn_ext. intros i Hi. apply csumn_ext. intros p _.
  unfold h, t_pin_rd, data_sc_rd. cbn [fst snd]. rewrite tnl_id, phase_id by auto. reflexivity.
Qed.
Lemma call_exact f ns : ft_call_rd (fun x => x) exact_library (fun l n => giw (ft_moments f l) n) f ns = ft_call f ns.
Proof.
  unfold ft_call_rd, ft_call. destruct (check_reduced_matsubara _ _) as [ms|e]; [|reflexivity]. cbn [bind].
  assert (E : unl_inner_rd (fun x => x) exact_library (fgeom f) (fcols f) ms = unl_inner (fgeom f) (fcols f) ms); [|rewrite E; reflexivity].
  unfold unl_inner_rd, unl_inner. cbv zeta. destruct (_ || _); [reflexivity|]. destruct (negb _); [reflexivity|]. f_equal.
  generalize 0%nat at 2. induction (fcols f) as [|c cols IH]; intros s; [reflexivity|]. cbn [length seq combine map fst snd]. f_equal; [|apply IH].
  clear IH. generalize 0%nat. induction ms as [|n ms IHm]; intros t; [reflexivity|]. cbn [length seq combine map fst snd]. f_equal; [apply entry_id|apply IHm].
Qed.

(** * The transform *)
Lemma call_rd_fourier u eta rd ej ec um em gam th F model f ns M l c j n :
  rounding u eta rd -> 0 < u <= / 10000 -> 0 <= eta ->
  geom_near u eta (fgeom f) -> gxmin (fgeom f) = -1 -> gxmax (fgeom f) = 1 ->
  (forall i, (i < gnseg (fgeom f))%nat -> fair_length u eta (fgeom f) i) -> INR (gnseg (fgeom f)) * u <= / 200 ->
  (0 < gorder (fgeom f))%nat -> glen (fgeom f) = gorder (fgeom f) ->
  library_near (gorder (fgeom f)) (gorder (fgeom f) * gnseg (fgeom f)) u ej ec um em gam th F -> small_library ej ec um em gam ->
  ft_call_rd rd F model f ns = Ok M -> nth_error (fcols f) l = Some c -> nth_error ns j = Some n ->
  (forall x, fasymp f = Some x -> Rabs (IZR n) < x) ->
  exists v w, entry M l j = Some v /\
    is_fourier (fun x => PI * IZR n * (x + 1) / 2) (cval (ideal_geom (fgeom f)) c) (-1) 1 (Cmult (RtoC (sqrt 2)) w) /\
    Cmod (Cminus v w) <= transform_error u eta (constant_error u ej ec um em gam) th (fgeom f) c n.
Proof.
  intros Hr Hu He Hg Hmin Hmax Hf Hm Ho Hl HF Hs Hc El En Ha.
  assert (Hn : (0 < gnseg (fgeom f))%nat) by apply Hg.
  exists (unl_entry_rd rd F (fgeom f) c j l n), (unl_entry (exactg (fgeom f)) c n). split; [|split].
  - rewrite (call_rd_entry _ _ _ _ _ _ l c j n Ho Hn Hl Hc El En). f_equal. unfold rd_value, use_asymp.
    destruct (fasymp f) as [x|]; [|reflexivity]. specialize (Ha x eq_refl). unfold Rleb. destruct (Rle_dec x (Rabs (IZR n))); [lra|reflexivity].
  - apply (unl_fourier (exactg (fgeom f)) (exactg_ok _ _ _ Hg) Hmin Hmax Hl).
  - eapply entry_near; eauto.
Qed.
Lemma call_rd_model rd F model f ns M l c j n x : (0 < gorder (fgeom f))%nat -> (0 < gnseg (fgeom f))%nat -> glen (fgeom f) = gorder (fgeom f) ->
  ft_call_rd rd F model f ns = Ok M -> nth_error (fcols f) l = Some c -> nth_error ns j = Some n ->
  fasymp f = Some x -> x <= Rabs (IZR n) -> entry M l j = Some (model l n).
Proof.
  intros Ho Hn Hl Hc El En Ha Hx. rewrite (call_rd_entry _ _ _ _ _ _ l c j n Ho Hn Hl Hc El En). f_equal. unfold rd_value, use_asymp.
  rewrite Ha. unfold Rleb. destruct (Rle_dec x (Rabs (IZR n))); [reflexivity|lra].
Qed.

(** * Rounded libraries *)
Lemma library_rounded u eta rd N K ej ec F : rounding u eta rd -> 0 <= u <= / 10000 -> 0 <= eta -> INR K * u <= 1 / 4 ->
  0 <= ej -> 0 <= ec -> functions_near N u ej ec F -> rounded_library rd F ->
  library_near N K u ej ec (6 * u) (12 * eta) (6 * INR K * u) (12 * INR K * eta) F.
Proof.
  intros Hr Hu He HK Hj Hc (A & B & C) [P D]. pose proof (pos_INR K) as IK. unfold library_near.
  assert (0 <= 6 * INR K * u) by (apply Rmult_le_pos; lra). assert (0 <= 12 * INR K * eta) by (apply Rmult_le_pos; lra).
  split; [auto|]. split; [auto|]. split; [lra|]. split; [lra|]. split; [auto|]. split; [auto|]. split; [auto|]. split; [auto|]. split; [auto|]. split.
  - intros a b. pose proof (DotRound.inner_near u eta rd Hr ltac:(lra) He [a] [b] _ 1 (P a b) eq_refl (le_n _)) as E.
    cbn in E. assert (E' := E ltac:(lra)). unfold DotRound.cdot, DotRound.cabs in E'. cbn in E'.
    replace (Cminus (f_mul F a b) (Cmult a b)) with (Cminus (f_mul F a b) (Cplus (RtoC 0) (Cmult a b))) by (f_equal; ring).
    eapply Rle_trans; [exact E'|]. lra.
  - intros j l xs ys Lx Ly. pose proof (DotRound.inner_near u eta rd Hr ltac:(lra) He xs ys _ K (D j l xs ys ltac:(congruence)) ltac:(congruence) ltac:(lia) HK) as E.
    unfold DotRound.cdot, DotRound.cabs in E. rewrite Lx in E. exact E.
Qed.

(** * Double precision *)
From Verif.Proofs Require Import KernelRoundCall SamplingRoundExamples PPolyExamples.
From Verif.Proofs Require RescaleIEEE.
Lemma error_le u eta d d' th th' g c n : 0 <= d -> d <= d' -> th <= th' -> transform_error u eta d th g c n <= transform_error u eta d' th' g c n.
Proof.
  intros H0 Hd Ht. unfold transform_error. apply Rplus_le_compat; [|auto]. apply Rplus_le_compat_r. apply sumn_le. intros i _.
  apply Rmult_le_compat_r; [apply sumn_nonneg; intros; apply Rabs_pos|]. apply Rmult_le_compat_l; [apply sqrt_pos|]. lra.
Qed.
Lemma call_rd_double ej ec F model f ns M l c j n :
  geom_near (/ 2 ^ 53) eta64 (fgeom f) -> gxmin (fgeom f) = -1 -> gxmax (fgeom f) = 1 ->
  (forall i, (i < gnseg (fgeom f))%nat -> / 10 ^ 290 <= knot (fgeom f) (S i) - knot (fgeom f) i) ->
  (0 < gorder (fgeom f))%nat -> glen (fgeom f) = gorder (fgeom f) ->
  INR (gorder (fgeom f) * gnseg (fgeom f)) <= 10 ^ 12 ->
  0 <= ej <= / 100 -> 0 <= ec <= / 100 -> functions_near (gorder (fgeom f)) (/ 2 ^ 53) ej ec F -> rounded_library rnd64 F ->
  ft_call_rd rnd64 F model f ns = Ok M -> nth_error (fcols f) l = Some c -> nth_error ns j = Some n ->
  (forall x, fasymp f = Some x -> Rabs (IZR n) < x) ->
  exists v w, entry M l j = Some v /\
    is_fourier (fun x => PI * IZR n * (x + 1) / 2) (cval (ideal_geom (fgeom f)) c) (-1) 1 (Cmult (RtoC (sqrt 2)) w) /\
    Cmod (Cminus v w) <=
      let K := INR (gorder (fgeom f) * gnseg (fgeom f)) in
      transform_error (/ 2 ^ 53) eta64 (ej + 2 * ec + (33 + 12 * K) * / 2 ^ 53) (12 * K * eta64) (fgeom f) c n.
Proof.
  intros Hg Hmin Hmax Hk Ho Hl HK Hj Hc Hf HL HM El En Ha. cbv zeta.
  set (K := (gorder (fgeom f) * gnseg (fgeom f))%nat) in *.
  assert (Hn : (0 < gnseg (fgeom f))%nat) by apply Hg.
  pose proof (pos_INR K) as K0.
  assert (KM : INR (gnseg (fgeom f)) <= INR K) by (apply le_INR; unfold K; nia).
  assert (Hu : 0 < / 2 ^ 53 <= / 10 ^ 15).
  { split; [apply Rinv_0_lt_compat, pow_lt; lra|]. apply Rinv_le_contravar; [apply pow_lt; lra|]. cbn. lra. }
  assert (Ku : INR K * / 2 ^ 53 <= / 1000).
  { apply Rle_trans with (10 ^ 12 * / 10 ^ 15); [apply Rmult_le_compat; lra|]. right. field. }
  assert (Mu : INR (gnseg (fgeom f)) * / 2 ^ 53 <= / 1000) by (eapply Rle_trans; [apply Rmult_le_compat_r; [lra|exact KM]|exact Ku]).
  destruct (small_double 0 ltac:(lra)) as (_ & _ & E0 & E1).
  assert (E2 : eta64 * 100 <= / 2 ^ 53).
  { eapply Rle_trans; [|exact E1]. apply Rmult_le_compat_l; [exact E0|]. apply Rle_trans with (10 ^ 2); [lra|]. apply Rle_pow; [lra|lia]. }
  assert (U5 : 0 < / 2 ^ 53 <= / 10000).
  { split; [lra|]. apply Rle_trans with (/ 10 ^ 15); [lra|]. apply Rinv_le_contravar; [lra|]. cbn; lra. }
  assert (Fair : forall i, (i < gnseg (fgeom f))%nat -> fair_length (/ 2 ^ 53) eta64 (fgeom f) i).
  { intros i Hi. apply fair_double. split; [apply Hk; auto|].
    pose proof (knots_in (/ 2 ^ 53) eta64 (fgeom f) Hg Hmin Hmax i ltac:(lia)). pose proof (knots_in (/ 2 ^ 53) eta64 (fgeom f) Hg Hmin Hmax (S i) Hi).
    apply Rle_trans with (10 ^ 1); [cbv beta in *; lra|]. apply Rle_pow; [lra|lia]. }
  clear E1 Hu. 
  pose proof (library_rounded (/ 2 ^ 53) eta64 rnd64 (gorder (fgeom f)) K ej ec F rounding_double ltac:(lra) E0 ltac:(lra) (proj1 Hj) (proj1 Hc) Hf HL) as Lib.
  pose proof rounding_double as Rd. revert Rd Lib E0 E2 U5 Ku Mu Hg Fair. generalize eta64 (/ 2 ^ 53). intros eta u Rd Lib E0 E2 U5 Ku Mu Hg Fair.
  destruct (call_rd_fourier u eta rnd64 ej ec (6 * u) (12 * eta) (6 * INR K * u) (12 * INR K * eta) F model f ns M l c j n) as (v & w & A & B & C);
    auto; try lra.
  { unfold small_library. split; [lra|]. split; [lra|]. split; [lra|]. split; lra. }
  exists v, w. split; [exact A|]. split; [exact B|]. eapply Rle_trans; [exact C|].
  assert (0 <= 6 * INR K * u) by (apply Rmult_le_pos; lra).
  apply error_le; unfold constant_error; [|lra|lra]. lra.
Qed.

(** * A concrete case *)
Definition two_geom : geom := Geom 2 2 2 [-1; 0; 1] [1; 1].
Definition two_col : col := Col (fun p i => match p with O => match i with O => -1 | _ => 1 end | _ => 2 end) 1.
Definition two_ft : ft := FT two_geom [two_col] FOdd (Some 100) None.
Definition double_library : flib :=
  Flib (rnd64 PI) (fun l z => rnd64 (sph_jn l z)) (fun t => rnd64 (cos t)) (fun t => rnd64 (sin t))
       (fun a b => (in_pairs rnd64 (re_products [a] [b]), in_pairs rnd64 (im_products [a] [b])))
       (fun _ _ xs ys => (in_order rnd64 (re_products xs ys), in_order rnd64 (im_products xs ys))).
Lemma two_ok : geom_ok two_geom.
Proof.
  unfold geom_ok. cbn. split; [lia|]. split; [reflexivity|]. split; [repeat constructor; lra|]. split; [reflexivity|].
  intros i Hi. unfold knot. destruct i as [|[|]]; cbn; try lra; lia.
Qed.
Lemma double_functions N : functions_near N (/ 2 ^ 53) (2 * / 2 ^ 53) (2 * / 2 ^ 53) double_library.
Proof.
  destruct (small_double 0 ltac:(lra)) as (_ & _ & E0 & E1).
  assert (E2 : eta64 * 1 <= / 2 ^ 53).
  { eapply Rle_trans; [|exact E1]. apply Rmult_le_compat_l; [exact E0|]. apply pow_R1_Rle. lra. }
  assert (S : forall x, Rabs x <= 1 -> Rabs (rnd64 x - x) <= 2 * / 2 ^ 53).
  { intros x Hx. eapply Rle_trans; [apply (proj1 rounding_double)|].
    assert (U : 0 < / 2 ^ 53) by (apply Rinv_0_lt_compat, pow_lt; lra). clear E1. revert E2 U. generalize (/ 2 ^ 53) eta64. intros u e E2 U. nra. }
  split; [|split].
  - cbn [double_library f_pi]. pose proof PI_bounds. rewrite <- (Rabs_pos_eq PI) at 3 by lra. apply RescaleIEEE.rnd_rel.
    rewrite Rabs_pos_eq by lra. apply Rle_trans with (bpow radix2 0); [apply bpow_le; lia|]. cbn. lra.
  - intros l z _ Hz. apply S, sph_le1. auto.
  - intros t. split; apply S; apply Rabs_le; [pose proof (COS_bound t)|pose proof (SIN_bound t)]; lra.
Qed.
Lemma double_rounded : rounded_library rnd64 double_library.
Proof.
  split.
  - intros a b. left. split; apply in_pairs_summed.
  - intros j l xs ys _. left. split; apply in_order_summed.
Qed.
Lemma two_fourier model M v : ft_call_rd rnd64 double_library model two_ft [3%Z; 99%Z; 101%Z] = Ok M -> entry M 0 0 = Some v ->
  exists w, is_fourier (fun x => PI * 3 * (x + 1) / 2) (cval two_geom two_col) (-1) 1 (Cmult (RtoC (sqrt 2)) w) /\ Cmod (Cminus v w) <= / 10 ^ 12.
Proof.
  intros HM Hv.
  assert (K0 : knot two_geom 0 = -1) by reflexivity. assert (K1 : knot two_geom 1 = 0) by reflexivity. assert (K2 : knot two_geom 2 = 1) by reflexivity.
  assert (P290 : / 10 ^ 290 <= 1).
  { rewrite <- Rinv_1. apply Rinv_le_contravar; [lra|]. apply pow_R1_Rle. lra. }
  assert (P53 : 2 ^ 53 = 9007199254740992) by (cbn; lra).
  destruct (small_double 0 ltac:(lra)) as (_ & _ & E0 & E1).
  assert (E2 : eta64 * 1 <= / 2 ^ 53).
  { eapply Rle_trans; [|exact E1]. apply Rmult_le_compat_l; [exact E0|]. apply pow_R1_Rle. lra. } clear E1.
  assert (U : 0 <= 2 * / 2 ^ 53 <= / 100) by (rewrite P53; lra).
  destruct (call_rd_double (2 * / 2 ^ 53) (2 * / 2 ^ 53) double_library model two_ft [3; 99; 101]%Z M 0 two_col 0 3) as (v' & w & A & B & C); auto.
  - apply geom_ok_near; [left; apply Rinv_0_lt_compat, pow_lt; lra|exact E0|apply two_ok].
  - intros i Hi. cbn in Hi. cbn [two_ft fgeom]. destruct i as [|[|]]; [rewrite K0, K1; lra|rewrite K1, K2; lra|lia].
  - cbn. lia.
  - cbn. lra.
  - apply double_functions.
  - apply double_rounded.
  - cbn. intros x Hx. injection Hx as <-. rewrite Rabs_pos_eq; lra.
  - rewrite Hv in A. injection A as <-. exists w. split.
    + assert (I : ideal_geom (fgeom two_ft) = two_geom) by (unfold ideal_geom, two_geom; cbn; do 2 f_equal; [ring|f_equal; ring]).
      rewrite I in B. exact B.
    + eapply Rle_trans; [exact C|]. cbv zeta. unfold transform_error, reach. cbn [two_ft fgeom two_geom gnseg gorder sumn Nat.mul Nat.add].
      fold two_geom. rewrite K0, K1, K2. replace (0 - -1) with 1 by ring. replace (1 - 0) with 1 by ring. rewrite sqrt_1.
      cbn [two_col cdat]. rewrite (Rabs_pos_eq 3), (Rabs_pos_eq 2), (Rabs_pos_eq 1), (Rabs_left (-1)) by lra.
      replace ((-1 + 0) / 2 + 1) with (/ 2) by field. replace ((-1 + 0) / 2) with (- / 2) by field.
      replace ((0 + 1) / 2 + 1) with (3 / 2) by field. replace ((0 + 1) / 2) with (/ 2) by field. replace (/ 2 - 1) with (- / 2) by field. replace (- / 2 - 1) with (- (3 / 2)) by field.
      rewrite !Rabs_Ropp, (Rabs_pos_eq (/ 2)), (Rabs_pos_eq (3 / 2)) by lra.
      rewrite (Rmin_left (/ 2) (3 / 2)) by lra. rewrite (Rmin_left (/ 2) (/ 2)) by lra. rewrite (Rmin_right (3 / 2) (/ 2)) by lra.
      cbn [INR]. rewrite P53 in *. revert E0 E2. generalize eta64. intros e E0 E2. lra.
Qed.
Lemma two_case model : geom_near (/ 2 ^ 53) eta64 two_geom /\ functions_near 2 (/ 2 ^ 53) (2 * / 2 ^ 53) (2 * / 2 ^ 53) double_library /\
  rounded_library rnd64 double_library /\
  exists M v w, ft_call_rd rnd64 double_library model two_ft [3; 99; 101]%Z = Ok M /\ entry M 0 0 = Some v /\
    is_fourier (fun x => PI * 3 * (x + 1) / 2) (cval two_geom two_col) (-1) 1 (Cmult (RtoC (sqrt 2)) w) /\ Cmod (Cminus v w) <= / 10 ^ 12.
Proof.
  split; [apply geom_ok_near; [left; apply Rinv_0_lt_compat, pow_lt; lra|destruct (small_double 0 ltac:(lra)) as (_ & _ & E0 & _); exact E0|apply two_ok]|].
  split; [apply double_functions|]. split; [apply double_rounded|].
  assert (HM : ft_call_rd rnd64 double_library model two_ft [3; 99; 101]%Z = Ok (rd_rows rnd64 double_library model two_ft [3; 99; 101]%Z)).
  { apply call_rd_ok; cbn; auto. repeat constructor. }
  pose proof (call_rd_entry rnd64 double_library model two_ft _ _ 0 two_col 0 3 (Nat.lt_0_succ 1) (Nat.lt_0_succ 1) eq_refl HM eq_refl eq_refl) as Hv.
  destruct (two_fourier model _ _ HM Hv) as (w & A & B). eexists _, _, w. eauto.
Qed.
