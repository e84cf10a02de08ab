(** Round trips for the bases of the library, and concrete cases. *)
From Coq Require Import String ZArith Arith Bool Reals Lia Lra.
From Coquelicot Require Import Coquelicot.
From Coq Require Import List.
From Verif.Model Require Import Base Util Num Poly FT SVE Basis Matsubara Augment Kernel NDArray Sampling DLR.
From Verif.Spec Require Import SUtil SPoly SFT SSVE SBasis SKernel SAugment SSampling SDLR SDefaults STransform.
From Verif.Proofs Require Import BaseFacts SumFacts FTFacts FTCall PPolyFacts BasisFacts BasisOps BasisPhys AugmentFacts AugmentProps PointwiseFacts PointwiseMore
  DLRFacts DLRProps AdapterProps DefaultsSampling SVEPolicy SamplingFacts SamplingProps SamplingClaims SamplingExamples DLRClaims TransformFacts TransformBases.
Import ListNotations.
Open Scope R_scope.
Notation length := List.length.

(** The constructor accepts only frequencies allowed for the basis. *)
Lemma uhat_allowed compute b ns M : built compute b -> ft_call (buhat b) ns = Ok M -> Forall (allowed b) ns.
Proof.
  intros Hb E. destruct (buhat_shape compute b Hb) as (q & ms & Hq & Hfq & _).
  assert (F : Forall (freq_ok q) ns).
  { rewrite <- Hfq. destruct (Forall_dec (freq_ok (ffreq (buhat b))) ltac:(intros n; unfold freq_ok; destruct (ffreq (buhat b)); [left; exact I|destruct (Z.even n); [left|right]; congruence|destruct (Z.even n); [right|left]; congruence]) ns) as [F|F]; [exact F|].
    rewrite ft_call_freq in E by exact F. discriminate. }
  eapply Forall_impl; [|exact F]. intros n Hn. unfold allowed, stat_freq.
  destruct (even_odd_inv _ _ Hq) as [[Es ->]|[Es ->]]; rewrite Es; cbn [freq_ok] in Hn; rewrite Zeven_mod in Hn;
    (match goal with |- context [string_dec ?a ?b] => destruct (string_dec a b); try discriminate; try congruence end); cbn [zeta];
    pose proof (Z.mod_pos_bound n 2 ltac:(lia)); destruct (Zeq_bool (n mod 2) 0) eqn:E0; try discriminate;
    [apply Zeq_bool_neq in E0; lia|now apply Zeq_bool_eq in E0].
Qed.

Lemma basis_all compute svd b lam ns pos sm : built compute b -> klam (bkernel b) = Some lam ->
  matsubara_sampling svd (sb_of_basis b) ns pos = Ok sm -> Forall (fun n => Rabs (IZR n) < 40 * lam) ns ->
  Forall (transforms (bbeta b) (sb_of_basis b) (bsize b)) ns.
Proof.
  intros Hb Hlam Hm HF. destruct (mats_inv _ _ _ _ _ Hm) as (M & HM & _). cbn [sb_of_basis sb_uhat] in HM.
  pose proof (uhat_allowed compute b ns M Hb HM) as HA. rewrite Forall_forall in *. intros n I.
  apply (basis_transforms compute b lam); auto.
Qed.

(** ** Concrete cases *)
Lemma allowed_B b n : bstat b = "B"%string -> Z.even n = true -> allowed b n.
Proof.
  intros Es He. unfold allowed, stat_freq. rewrite Es. destruct (string_dec "B" "F"); [discriminate|]. cbn [zeta].
  rewrite Zeven_mod in He. now apply Zeq_bool_eq in He.
Qed.

Lemma tau_ok svd b pts : built no_compute b -> Forall (fun t => 0 <= t <= bbeta b) pts -> exists s, tau_sampling svd (sb_of_basis b) pts = Ok s.
Proof.
  intros Hb HF. destruct (bu_fresh no_compute b Hb) as (Hg & Hlen & Hs). destruct (bu_range no_compute b Hb) as [R1 R2].
  unfold tau_sampling. cbn [sb_of_basis sb_u].
  rewrite (proj2 (vcall_arr_ok (bu b) pts _ Hg Hlen) (conj (eq_ind_r (fun a => Forall (fun x => a <= x <= gxmax (vgeom (bu b))) pts) (eq_ind_r (fun a => Forall (fun x => 0 <= x <= a) pts) HF R2) R1) eq_refl)).
  cbn [bind]. rewrite decomposed_none. cbn [bind]. eauto.
Qed.
Lemma mats_ok svd b ns : built no_compute b -> Forall (allowed b) ns -> exists s, matsubara_sampling svd (sb_of_basis b) ns false = Ok s.
Proof.
  intros Hb HF. destruct (proj2 (proj1 (uhat_pointwise no_compute b Hb ns))) as [M HM].
  { rewrite Forall_forall in HF. intros n I. apply (uhat_ok_at no_compute); auto. }
  unfold matsubara_sampling. cbn [sb_of_basis sb_uhat]. rewrite HM. cbn [bind]. rewrite decomposed_none. cbn [bind]. eauto.
Qed.

Lemma basis_case : exists b, built no_compute b /\ klam (bkernel b) = Some (2 * 3) /\ allowed b 2%Z /\ Rabs (IZR 2) < 40 * (2 * 3) /\ bbeta b = 2 /\ bsize b = 1%nat /\ bstat b = "B"%string.
Proof.
  destruct (ex_basis_B_lam 1 ltac:(lra)) as (b & Hb & Es & Eb & Ew & Er & Hs & Hl). exists b.
  repeat (split; [assumption|]). split; [now apply allowed_B|]. split; [rewrite Rabs_pos_eq; lra|]. auto.
Qed.

Lemma dlr_case : exists f d n, built no_compute (dl_basis d) /\ dlr_built col_svd d /\ tfun_ok f /\ (exists w, In w (dl_poles d) /\ w <> 0) /\
  allowed (dl_basis d) n /\ n <> 0%Z.
Proof.
  destruct dlr_example as (d & Hb & _ & Hp & Hd & _). destruct taupoles_example as (f & _ & Hf & _).
  exists f, d, (2 + zeta (stat_freq (dl_basis d)))%Z.
  repeat (split; [assumption|]). split.
  - exists (bwmax (dl_basis d)). rewrite Hp. split; [now left|]. pose proof (wmax_pos no_compute _ Hb). lra.
  - unfold allowed. destruct (stat_freq (dl_basis d)); cbn; split; [reflexivity|lia|reflexivity|lia].
Qed.

(** Two functions at two times, and at one frequency; one function at two
    frequencies, and at one time. *)
Lemma forth_case : exists b st sm lam, built no_compute b /\ klam (bkernel b) = Some lam /\ bsize b = 2%nat /\
  tau_sampling svd2 (sb_of_basis b) [0; 2] = Ok st /\ matsubara_sampling svd2 (sb_of_basis b) [0%Z] false = Ok sm /\
  Forall (fun n => Rabs (IZR n) < 40 * lam) [0%Z] /\
  let A := d_a (ts_matrix st) in is_svd A (svd2 A) /\ nonzero A /\ full_rank A.
Proof.
  destruct (tau_example "B" (or_intror eq_refl)) as (b & s & Hb & Es & Hz & Hs & H1 & H0 & H2 & H3 & H4).
  destruct (mats_ok svd2 b [0%Z] Hb) as (sm & Hm). { constructor; [|constructor]. now apply allowed_B. }
  destruct (built_inv no_compute b Hb) as (lam & _ & _ & _ & _ & _ & _ & _ & Hlam & Pl & _).
  exists b, s, sm, lam. repeat (split; [assumption|]). split; [|auto]. constructor; [|constructor]. rewrite Rabs_R0. lra.
Qed.
Lemma back_case pos : exists b st sm, built no_compute b /\ klam (bkernel b) = Some (2 * 3) /\ bsize b = 1%nat /\
  tau_sampling col_svd (sb_of_basis b) [1 / 2] = Ok st /\ matsubara_sampling col_svd (sb_of_basis b) [0; 2]%Z pos = Ok sm /\
  Forall (fun n => Rabs (IZR n) < 40 * (2 * 3)) [0; 2]%Z /\
  let A := m_a (ms_matrix sm) in is_svd A (col_svd A) /\ nonzero A /\ full_rank A /\
    is_real_svd (stacked A (zoff [0; 2]%Z)) (col_svd (stacked A (zoff [0; 2]%Z))) /\ full_real_rank A.
Proof.
  destruct (mats_example_lam pos) as (b & s & M & H1 & H2 & H3 & H4 & H5 & H6 & H7 & H8 & H9 & H10 & H11 & H12 & H13 & H14 & H15).
  destruct (tau_ok col_svd b [1 / 2] H1) as (st & Ht). { constructor; [rewrite H15; lra|constructor]. }
  exists b, st, s. repeat (split; [assumption|]). rewrite H6. split; [|split; [exact H9|]; split; [exact H7|]; split; [exact H10|]; split; [exact H12|exact H13]].
  constructor; [rewrite Rabs_R0; lra|]. constructor; [rewrite Rabs_pos_eq; lra|constructor].
Qed.
