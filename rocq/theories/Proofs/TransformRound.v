(** The matrices of sampling objects made for bases in rounded arithmetic. *)
From Coq Require Import String ZArith Arith Bool Reals Lra Lia Psatz.
From Coquelicot Require Import Coquelicot.
From Coq Require Import List.
From Verif.Model Require Import Base Util Num Poly PolyIEEE FT FTIEEE SVE Basis BasisIEEE NDArray Sampling SamplingIEEE TransformIEEE.
From Verif.Spec Require Import SPoly SFT SSVE SBasis SComputed SKernelIEEE SRounded SSampling SSamplingIEEE STransform SPolyIEEE SFTIEEE SSVEIEEE SBasisIEEE SWholeIEEE STransformIEEE.
From Verif.Proofs Require Import BaseFacts SumFacts FTFacts PPolyFacts BasisFacts BasisPhys WholeFacts NDFacts SamplingFacts SplitFacts SamplingProps TransformFacts CVec NDRel SamplingRound SamplingRoundProps
  PolyRound BasisRound BasisRoundProps BasisRoundMore WholeRound WholeRoundBasis Bessel.
Import ListNotations.
Open Scope R_scope.
Notation length := List.length.

Lemma list_choice {X Y : Type} (d : Y) (l : list X) : forall (P : nat -> X -> Y -> Prop),
  (forall j x, nth_error l j = Some x -> exists y, P j x y) -> exists f : nat -> Y, forall j x, nth_error l j = Some x -> P j x (f j).
Proof.
  induction l as [|x l IH]; intros P H.
  - exists (fun _ => d). intros [|j] x E; discriminate.
  - destruct (H 0%nat x eq_refl) as (y & Hy). destruct (IH (fun j => P (S j)) (fun j => H (S j))) as (f & Hf).
    exists (fun j => match j with O => y | S j => f j end). intros [|j] x' E; [injection E as <-; exact Hy|exact (Hf j x' E)].
Qed.

Lemma value_entry old rd p l x ys v : vcall_rd old rd p x = Ok ys -> (l < length (vcols p))%nat -> value_rd old rd p (Z.of_nat l) x = Ok v -> nth_error ys l = Some v.
Proof.
  unfold vcall_rd, value_rd. destruct (split_rd rd (vgeom p) x) as [ix|]; [|discriminate]. cbn [bind]. intros H Hl.
  unfold pyindex. rewrite (proj2 (andb_true_iff _ _)) by (split; [apply Z.leb_le|apply Z.ltb_lt]; lia). destruct (Z.ltb_spec (Z.of_nat l) 0); [lia|]. rewrite Nat2Z.id.
  destruct (nth_error (vcols p) l) as [c|] eqn:E; [|discriminate]. destruct (glen (vgeom p)); [discriminate|]. injection H as <-. intros [= <-]. now rewrite nth_error_map, E.
Qed.

Lemma tau_matrix svd b pts s : tau_sampling svd b pts = Ok s -> exists M, sb_u b pts = Ok M /\ d_a (ts_matrix s) = sampling_matrix (length pts) M.
Proof. unfold tau_sampling. destruct (sb_u b pts) as [M|]; [|discriminate]. cbn [bind]. intros H. exists M. split; [reflexivity|]. unfold decomposed in H. cbn [bind] in H. injection H as <-. reflexivity. Qed.
Lemma mats_matrix svd b p pos s : matsubara_sampling svd b p pos = Ok s -> exists M, sb_uhat b p = Ok M /\ m_a (ms_matrix s) = sampling_matrix (length p) M.
Proof.
  intros H. assert (E : exists M, sb_uhat b p = Ok M). { revert H. unfold matsubara_sampling. destruct (sb_uhat b p) as [M|]; [eauto|discriminate]. }
  destruct E as (M & E). exists M. split; [exact E|]. destruct pos; [exact (pos_matrix _ _ _ _ _ H E)|].
  destruct (mats_sampling_inv _ _ _ _ H) as (M' & HM & ->). rewrite E in HM. injection HM as <-. reflexivity.
Qed.

Lemma combine_len {X Y} (a : list X) (b : list Y) : length a = length b -> length (combine a b) = length a.
Proof. intros H. rewrite combine_length, H. apply Nat.min_id. Qed.
Lemma ft_rows rd F model f ns M : ft_call_rd rd F model f ns = Ok M -> length M = length (fcols f).
Proof.
  unfold ft_call_rd. destruct (check_reduced_matsubara _ _) as [p|]; [|discriminate]. cbn [bind]. unfold unl_inner_rd.
  destruct (_ || _)%bool; [discriminate|]. destruct (negb _); [discriminate|]. cbn [bind]. intros [= <-].
  rewrite map_length, combine_len by now rewrite seq_length. rewrite seq_length, map_length, combine_len by now rewrite seq_length. apply seq_length.
Qed.

Section Basis.
Variables (u eta : R) (rd : R -> R) (pw : R -> Z -> R) (compute compute' : kern -> option R -> res sve_result) (b : basis).
Hypothesis Hrd : rounding u eta rd.
Hypothesis Hu : 0 < u <= / 10000.
Hypothesis He : 0 <= eta.
Hypothesis Hb : built_rd u eta rd pw compute b.
Variable b0 : basis.
Hypothesis H0 : exact_version compute' b b0.
Variables (old : bool) (F : flib) (model : nat -> Z -> C).
Let sb := sb_of_basis_rd old rd F model b.
Let g := vgeom (su (bsve b)).

Lemma version_cols : length (vcols (bu b0)) = bsize b0 /\ bsize b0 = length (bs b) /\ length (vcols (bu b)) = length (bs b) /\ (0 < bsize b0)%nat.
Proof.
  destruct (version_inv u eta rd pw compute compute' b Hb b0 H0) as (B & _ & Eb & Ew & Ek & Es & En).
  destruct (built_rd_inv u eta rd pw compute b Hb) as (q & e & ms & lam & f & Pb & Pw & Ex & Hn & _ & _ & Eu & _). destruct Ex as (_ & _ & Lu & _).
  assert (E : length (vcols (bu b0)) = length (bs b)). { rewrite (bu_eq compute' b0 B), En, Es. cbn [vcols ideal_sve su ideal]. rewrite firstn_length_le by lia. reflexivity. }
  rewrite E, En. split; [reflexivity|]. split; [reflexivity|]. split; [|lia]. rewrite Eu. cbn [vcols]. rewrite firstn_length_le; [reflexivity|lia].
Qed.

Lemma version_knot i : (i <= gnseg g)%nat -> knot (vgeom (bu b0)) i = bbeta b / 2 * knot g i + bbeta b / 2.
Proof.
  intros Hi. destruct (version_inv u eta rd pw compute compute' b Hb b0 H0) as (B & _ & Eb & Ew & Ek & Es & En).
  destruct (built_rd_inv u eta rd pw compute b Hb) as (q & e & ms & lam & f & Pb & Pw & Ex & Hn & _).
  assert (Gk : geom_ok (ideal_geom g)) by apply (ideal_fresh u eta (su (bsve b))), Ex.
  rewrite (bu_eq compute' b0 B), Eb, Es. cbn [vgeom]. destruct Gk as (_ & L & _). rewrite scaled_knot; [reflexivity|]. cbn [ideal_sve su ideal vgeom ideal_geom gknots gnseg] in *. fold g. lia.
Qed.

Lemma segs_eq : gnseg (vgeom (bu b0)) = gnseg g /\ gnseg (vgeom (bu b)) = gnseg g.
Proof.
  destruct (version_inv u eta rd pw compute compute' b Hb b0 H0) as (B & _ & Eb & Ew & Ek & Es & En).
  destruct (built_rd_inv u eta rd pw compute b Hb) as (q & e & ms & lam & f & Pb & Pw & Ex & Hn & _ & _ & Eu & _).
  split; [rewrite (bu_eq compute' b0 B), Es; reflexivity|rewrite Eu; reflexivity].
Qed.

Lemma outer_knot i : (i < gnseg g)%nat -> outer 1 g i = knot g (S i) + 1.
Proof.
  intros Hi. destruct (built_rd_inv u eta rd pw compute b Hb) as (q & e & ms & lam & f & Pb & Pw & Ex & Hn & _).
  assert (Gk : geom_ok (ideal_geom g)) by apply (ideal_fresh u eta (su (bsve b))), Ex.
  assert (K0 : knot g 0 = -1). { destruct Ex as ((_ & E & _) & _). unfold gxmin in E. exact E. }
  assert (M : forall j, (j <= gnseg g)%nat -> knot g 0 <= knot g j).
  { intros j Hj. exact (knot_le (ideal_geom g) Gk 0 j (conj (Nat.le_0_l j) Hj)). }
  pose proof (M i ltac:(lia)). pose proof (M (S i) ltac:(lia)). unfold outer. rewrite !Rabs_pos_eq by lra. apply Rmax_right.
  pose proof (knot_le (ideal_geom g) Gk i (S i) (conj (Nat.le_succ_diag_r i) Hi)) as K. change (knot (ideal_geom g)) with (knot g) in K. lra.
Qed.

Lemma time_near svd pts s e : fair_times u eta b b0 e -> tau_sampling svd sb pts = Ok s ->
  exists B, time_matrix u (bu b0) pts B /\ entries_near (d_a (ts_matrix s)) B e /\ mr (d_a (ts_matrix s)) = length pts /\ mc (d_a (ts_matrix s)) = bsize b0.
Proof.
  intros (Pe & Hf & HE) Hs. destruct (tau_matrix _ _ _ _ Hs) as (M & HM & EA). rewrite EA. cbn [sb sb_of_basis_rd sb_u] in HM.
  destruct (vcall_arr_rd old rd (bu b) pts) as [M0|] eqn:E0; [|discriminate]. cbn [bind] in HM. injection HM as <-.
  destruct version_cols as (C0 & C1 & C2 & _). destruct (arr_entry _ _ _ _ _ E0) as (LM & Ent).
  assert (Hin : forall t, In t pts -> gxmin (vgeom (bu b)) <= t <= gxmax (vgeom (bu b))).
  { intros t Ht. unfold vcall_arr_rd in E0. destruct (forallb (in_range (vgeom (bu b))) pts) eqn:Fa; [|discriminate]. rewrite forallb_forall in Fa. specialize (Fa t Ht). unfold in_range in Fa.
    apply andb_true_iff in Fa as (F1 & F2). apply Rleb_true in F1. apply Rleb_true in F2. lra. }
  destruct (rd_covers u eta rd pw compute b Hb) as (Cov & _).
  assert (Ch : forall j t, nth_error pts j = Some t -> exists r : nat -> C,
     (exists i t', Rabs (t' - t) <= 32 / 10 * u * knot (vgeom (bu b0)) (S i) /\ values_in (bu b0) i t' r) /\
     forall l, (l < bsize b0)%nat -> Cmod (Cminus (me (sampling_matrix (length pts) (map (map RtoC) M0)) j l) (r l)) <= e).
  { intros j t Ht. destruct (Cov t (Hin t (nth_error_In _ _ Ht))) as (i & Hi). assert (Gi : (i < gnseg g)%nat) by (destruct Hi as (Hi & _); rewrite (proj2 segs_eq) in Hi; exact Hi).
    destruct (HE i Gi) as (HL & Hm). destruct (version_u u eta rd pw compute compute' b Hb b0 H0 Hrd Hu He old i t Hf Hi HL) as (t' & ys & A1 & A2 & A3 & A4 & A5).
    exists (fun l => match nth_error (vcols (bu b0)) l with Some c => RtoC (seg_fun (vgeom (bu b0)) c i t') | None => RtoC 0 end). split.
    - exists i, t'. split.
      + fold g in A1. rewrite outer_knot in A1 by exact Gi. rewrite version_knot by lia. lra.
      + split; [rewrite (proj1 segs_eq); exact Gi|]. split; [exact A2|]. intros l c Hc. now rewrite Hc.
    - intros l Hl. destruct (nth_error (vcols (bu b0)) l) as [c|] eqn:Ec; [|apply nth_error_None in Ec; lia].
      assert (Lr : (l < length M0)%nat) by lia. destruct (nth_error M0 l) as [row|] eqn:Er; [|apply nth_error_None in Er; lia].
      destruct (Ent l j row t Er Ht) as (v & Ev & Hv). apply (value_entry _ _ _ _ _ _ _ A3) in Hv; [|lia].
      cbn [sampling_matrix me]. rewrite (nth_indep _ [] (map RtoC [])) by (rewrite map_length; exact Lr). rewrite map_nth. rewrite (nth_error_nth _ _ _ Er).
      rewrite map_nth. rewrite (nth_error_nth _ _ _ Ev). rewrite <- RtoC_minus, Cmod_R. eapply Rle_trans; [exact (A5 l c v Ec Hv)|]. apply Hm. exact (nth_error_In _ _ Ec). }
  destruct (list_choice (fun _ : nat => RtoC 0) pts _ Ch) as (rows & HR).
  exists (Mat (length pts) (bsize b0) rows). split; [|split; [|split; [reflexivity|]]].
  - split; [reflexivity|]. split; [cbn; congruence|]. intros j t Ht. exact (proj1 (HR j t Ht)).
  - split; [reflexivity|]. split; [cbn [sampling_matrix mc]; rewrite map_length; lia|]. split; [exact Pe|]. cbn [sampling_matrix mr mc]. rewrite map_length. intros j l Hj Hl.
    destruct (nth_error pts j) as [t|] eqn:Et; [|apply nth_error_None in Et; lia]. apply (proj2 (HR j t Et)). lia.
  - cbn [sampling_matrix mc]. rewrite map_length. lia.
Qed.

Lemma frequency_near svd ns pos s e ej ec um em gam th h : library_near (gorder g) (gorder g * gnseg g) u ej ec um em gam th F -> small_library ej ec um em gam ->
  fair_frequencies u eta (constant_error u ej ec um em gam) th rd b b0 ns e -> matsubara_sampling svd sb ns pos = Ok s ->
  (forall l, (l < bsize b0)%nat -> represents (bu b0) l (h l)) ->
  exists H, mr H = length ns /\ mc H = bsize b0 /\
   (forall j n, nth_error ns j = Some n -> forall l, (l < bsize b0)%nat -> is_fourier (fun t => PI * IZR n * t / bbeta b) (h l) 0 (bbeta b) (me H j l)) /\
   entries_near (m_a (ms_matrix s)) H e /\ mr (m_a (ms_matrix s)) = length ns /\ mc (m_a (ms_matrix s)) = bsize b0.
Proof.
  intros HF Hsm (Pe & F1 & F2 & lam & Kl & HE) Hs Hh. destruct (mats_matrix _ _ _ _ _ Hs) as (M & HM & EA). rewrite EA. cbn [sb sb_of_basis_rd sb_uhat] in HM.
  destruct version_cols as (C0 & C1 & C2 & _). pose proof (ft_rows _ _ _ _ _ _ HM) as LM. rewrite (proj2 (proj2 (proj2 (rd_sizes u eta rd pw compute b Hb)))) in LM.
  assert (Ch : forall j n, nth_error ns j = Some n -> exists r : nat -> C, forall l, (l < bsize b0)%nat ->
     is_fourier (fun t => PI * IZR n * t / bbeta b) (h l) 0 (bbeta b) (r l) /\ Cmod (Cminus (me (sampling_matrix (length ns) M) j l) (r l)) <= e).
  { intros j n Hn. destruct (HE n (nth_error_In _ _ Hn)) as (Hx & Hm).
    exists (fun l => (RInt (fun t => cos (PI * IZR n * t / bbeta b) * h l t) 0 (bbeta b), RInt (fun t => sin (PI * IZR n * t / bbeta b) * h l t) 0 (bbeta b))). intros l Hl.
    destruct (version_uhat u eta rd pw compute compute' b b0 ej ec um em gam th F model ns M l (h l) j n lam Hrd Hu He Hb H0 F1 F2 HF Hsm Kl HM (Hh l Hl) Hn Hx) as (c & v & w & Ec & Ev & Hw & D).
    assert (Ew : (RInt (fun t => cos (PI * IZR n * t / bbeta b) * h l t) 0 (bbeta b), RInt (fun t => sin (PI * IZR n * t / bbeta b) * h l t) 0 (bbeta b)) = w).
    { destruct Hw as (W1 & W2). rewrite (is_RInt_unique _ _ _ _ W1), (is_RInt_unique _ _ _ _ W2). destruct w; reflexivity. }
    rewrite Ew. split; [exact Hw|]. unfold entry in Ev. destruct (nth_error M l) as [row|] eqn:Er; [|discriminate].
    cbn [sampling_matrix me]. rewrite (nth_error_nth _ _ _ Er), (nth_error_nth _ _ _ Ev). eapply Rle_trans; [exact D|]. apply Hm. exact (nth_error_In _ _ Ec). }
  destruct (list_choice (fun _ : nat => RtoC 0) ns _ Ch) as (rows & HR).
  exists (Mat (length ns) (bsize b0) rows). split; [reflexivity|]. split; [reflexivity|]. split; [|split; [|split; [reflexivity|cbn [sampling_matrix mc]; lia]]].
  - intros j n Hn l Hl. exact (proj1 (HR j n Hn l Hl)).
  - split; [reflexivity|]. split; [cbn [sampling_matrix mc]; lia|]. split; [exact Pe|]. cbn [sampling_matrix mr mc]. intros j l Hj Hl.
    destruct (nth_error ns j) as [n|] eqn:En; [|apply nth_error_None in En; lia]. apply (proj2 (HR j n En l ltac:(lia))).
Qed.

Lemma row_bound n h (Hr : nat -> C) a0 : (forall l, (l < bsize b0)%nat -> represents (bu b0) l (h l)) -> nearly_orthonormal_functions (bu b0) a0 ->
  (forall l, (l < bsize b0)%nat -> is_fourier (fun t => PI * IZR n * t / bbeta b) (h l) 0 (bbeta b) (Hr l)) ->
  size (bsize b0) Hr <= sqrt (bbeta b * (1 + INR (bsize b0) * a0)).
Proof.
  intros Hh Ho HF. destruct (version_inv u eta rd pw compute compute' b Hb b0 H0) as (B & _ & Eb & _). destruct (bu_range compute' b0 B) as (R1 & R2). rewrite Eb in R2.
  destruct (built_rd_inv u eta rd pw compute b Hb) as (q & e & ms & lam & f & Pb & _).
  unfold size. apply sqrt_le_1_alt. apply (bessel (bsize b0) h (fun t => PI * IZR n * t / bbeta b) (bbeta b) a0 Hr Pb HF (fun l m => RInt (fun t => h l t * h m t) 0 (bbeta b))).
  intros l m Hl Hm. destruct (Ho l m (h l) (h m) (Hh l Hl) (Hh m Hm)) as (I & HI & D). rewrite R1, R2 in HI. rewrite (is_RInt_unique _ _ _ _ HI). split; assumption.
Qed.
End Basis.
