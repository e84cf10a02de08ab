(** Lemmas about evaluation on given points. *)
From Coq Require Import String ZArith Arith Bool Reals Lia Lra.
From Coquelicot Require Import Coquelicot.
From Coq Require Import List Sorted Permutation.
From Verif.Model Require Import Base Util Num Poly FT SVE Basis Augment NDArray Sampling DLR.
From Verif.Spec Require Import SUtil SPoly SFT SBasis SSampling.
From Verif.Proofs Require Import BaseFacts SumFacts UtilFacts PPolyFacts FTFacts FTModel FTCall FTProps BasisFacts BasisInit BasisOps BasisPhys
  AugmentFacts AugmentProps NDFacts LstsqFacts SamplingFacts SplitFacts SamplingProps RecoverFacts PointwiseFacts.
Import ListNotations.
Open Scope R_scope.
Notation length := List.length.

Lemma works_fext op L N f f' : (forall g i, (i < N)%nat -> f g i = f' g i) -> works_along_axis op L N f -> works_along_axis op L N f'.
Proof.
  intros E H x k. specialize (H x k). destruct (axis_of (length (shp x)) k) as [a|] eqn:Ea; [|exact H].
  pose proof (axis_of_lt _ _ _ Ea) as Ha.
  destruct (Nat.eqb _ L); [|exact H]. destruct H as (y & E1 & S & E2). exists y. split; [exact E1|]. split; [exact S|].
  intros idx Hi. rewrite E2 by assumption. apply E.
  rewrite S in Hi. pose proof (valid_nth _ _ a Hi) as K. rewrite set_nth_nth in K by lia. apply K. rewrite set_nth_len; assumption.
Qed.


Lemma matrix_pointwise {P} (d : P) (eval : list P -> res (list (list C))) L pts M g i :
  pointwise (RtoC 0) eval L -> eval pts = Ok M -> (i < length pts)%nat ->
  length M = L /\ apply_mat (sampling_matrix (length pts) M) g i = expansion_at eval L (nth i pts d) g.
Proof.
  intros H E Hi. destruct (H pts) as [_ H2]. destruct (H2 M E) as [HL HM]. split; [exact HL|].
  unfold apply_mat, sampling_matrix, expansion_at. cbn [mc me]. rewrite HL. apply csumn_ext. intros l Hl. f_equal.
  destruct (nth_error M l) as [row|] eqn:Er; [|apply nth_error_None in Er; lia].
  rewrite (nth_error_nth_d _ _ _ [] Er). rewrite (HM l row Er). apply nth_error_nth_d.
  now rewrite (map_nth_error _ _ _ (nth_error_nth' pts d Hi)).
Qed.

Lemma pointwise_len {P} (eval : list P -> res (list (list C))) L pts M :
  pointwise (RtoC 0) eval L -> eval pts = Ok M -> length M = L.
Proof. intros H E. exact (proj1 (proj2 (H pts) M E)). Qed.

(** TauSampling *)
Lemma ravel_vector {A} (p : nd A) n : shp p = [n] -> ravel p = map (fun i => elt p [i]) (seq 0 n).
Proof.
  intros S. unfold ravel. rewrite S. cbn [prod]. rewrite Nat.mul_1_r. apply map_ext_in. intros k Hk. apply in_seq in Hk.
  cbn [unravel_index prod]. now rewrite Nat.div_1_r.
Qed.

Lemma tau_points svd s L (p : nd R) n s' : shp p = [n] -> pointwise (RtoC 0) (sb_u (ts_basis s)) L ->
  tau_sampling_at svd (ts_basis s) p = Ok s' ->
  works_along_axis (fun x k => t_evaluate svd s x (Some k) (Some p)) L n
    (fun g i => expansion_at (sb_u (ts_basis s)) L (elt p [i]) g).
Proof.
  intros Sp HP E.
  assert (E' := E). unfold tau_sampling_at, ndim in E'. rewrite Sp in E'. cbn [length Nat.eqb negb] in E'.
  rewrite (ravel_vector p n Sp) in E'. set (pts := map (fun i => elt p [i]) (seq 0 n)) in *.
  assert (Ln : length pts = n) by (unfold pts; now rewrite map_length, seq_length).
  destruct (tau_sampling_inv _ _ _ _ E') as (M & HM & Hs').
  pose proof (d_matmul_works (ts_matrix s')) as W. rewrite Hs' in W. cbn [ts_matrix of_core d_a] in W.
  cbn [sampling_matrix mr mc] in W. rewrite Ln in W. rewrite (pointwise_len _ _ _ _ HP HM) in W.
  eapply works_ext; [|eapply works_fext; [|exact W]].
  - intros x k. unfold t_evaluate. rewrite E. cbn [bind]. rewrite Hs'. cbn [ts_matrix]. rewrite Ln. reflexivity.
  - intros g i Hi. cbn [d_a of_core]. assert (Hi' : (i < length pts)%nat) by (rewrite Ln; exact Hi).
    pose proof (proj2 (matrix_pointwise 0 _ L pts M g i HP HM Hi')) as Q. rewrite Ln in Q. rewrite Q. f_equal.
    apply nth_error_nth_d. unfold pts. now apply (map_seq_error (fun i => elt p [i])).
Qed.

Lemma tau_points_ok svd b L (p : nd R) n : shp p = [n] -> pointwise (RtoC 0) (sb_u b) L ->
  (is_ok (tau_sampling_at svd b p) <-> forall i, (i < n)%nat -> is_ok (sb_u b [elt p [i]])).
Proof.
  intros Sp HP. unfold tau_sampling_at, ndim. rewrite Sp. cbn [length Nat.eqb negb]. rewrite (ravel_vector p n Sp).
  set (pts := map _ _). transitivity (is_ok (sb_u b pts)).
  - unfold tau_sampling. destruct (sb_u b pts) as [M|e]; cbn [bind].
    + rewrite decomposed_none. cbn [bind]. split; intros _; eexists; reflexivity.
    + split; intros [z E]; discriminate.
  - rewrite (proj1 (HP pts)). unfold pts. split.
    + intros H i Hi. apply H. apply in_map_iff. exists i. split; [reflexivity|]. apply in_seq. lia.
    + intros H x Hx. apply in_map_iff in Hx. destruct Hx as (i & <- & Hi). apply in_seq in Hi. apply H. lia.
Qed.

(** MatsubaraSampling *)
Lemma mats_at_inv svd b p pos s : matsubara_sampling_at svd b p pos = Ok s ->
  exists ns M, check_reduced_matsubara p None = Ok ns /\ sb_uhat b (zsort ns) = Ok M /\ ms_basis s = b /\ ms_points s = zsort ns /\
    m_a (ms_matrix s) = sampling_matrix (length ns) M /\ matsubara_sampling svd b (zsort ns) pos = Ok s /\ ms_positive s = pos /\
    (pos = true -> exists p0 q, zsort ns = p0 :: q /\ (0 <= p0)%Z).
Proof.
  unfold matsubara_sampling_at. destruct (check_reduced_matsubara p None) as [ns|]; [|discriminate]. cbn [bind].
  intros E. exists ns.
  assert (Lz : length (zsort ns) = length ns) by (symmetry; apply Permutation_length, zsort_perm).
  set (q := zsort ns) in *.
  assert (E1 : matsubara_sampling svd b q pos = Ok s /\ (pos = true -> exists p0 q', q = p0 :: q' /\ (0 <= p0)%Z)).
  { revert E. destruct pos; [|intros E; split; [exact E|discriminate]].
    destruct q as [|p0 q']; [discriminate|]. destruct (Z.leb_spec 0 p0); [|discriminate]. cbn [negb bind]. intros E. split; [exact E|].
    intros _. exists p0, q'. auto. }
  destruct E1 as [E1 E2]. clear E.
  assert (K : exists M, sb_uhat b q = Ok M /\ ms_basis s = b /\ ms_points s = q /\ m_a (ms_matrix s) = sampling_matrix (length ns) M /\ ms_positive s = pos).
  { revert E1. unfold matsubara_sampling. destruct (sb_uhat b q) as [M|]; [|discriminate]. cbn [bind]. rewrite Lz. intros E1.
    exists M. split; [reflexivity|]. destruct pos.
    - destruct q; [discriminate|]. unfold split_decomposed in E1. destruct (check_svd_result _ _ _ _); [|discriminate].
      cbn [bind] in E1. injection E1 as <-. auto.
    - rewrite decomposed_none in E1. cbn [bind] in E1. injection E1 as <-. auto. }
  destruct K as (M & K1 & K2 & K3 & K4 & K5). exists M. auto 10.
Qed.

Lemma mats_points svd s L p ns s' : pointwise (RtoC 0) (sb_uhat (ms_basis s)) L ->
  check_reduced_matsubara p None = Ok ns ->
  matsubara_sampling_at svd (ms_basis s) p (ms_positive s) = Ok s' ->
  works_along_axis (fun x k => m_evaluate svd s x (Some k) (Some p)) L (length ns)
    (fun g i => expansion_at (sb_uhat (ms_basis s)) L (nth i (zsort ns) 0%Z) g).
Proof.
  intros HP Hn E. destruct (mats_at_inv _ _ _ _ _ E) as (ns' & M & Hn' & HM & _ & _ & HA & _).
  assert (ns' = ns) by congruence. subst ns'.
  assert (Lz : length (zsort ns) = length ns) by (symmetry; apply Permutation_length, zsort_perm).
  pose proof (m_matmul_works (ms_matrix s')) as W. rewrite HA in W. cbn [sampling_matrix mr mc] in W.
  rewrite (pointwise_len _ _ _ _ HP HM) in W.
  eapply works_ext; [|eapply works_fext; [|exact W]].
  - intros x k. unfold m_evaluate. rewrite E. reflexivity.
  - intros g i Hi. assert (Hi' : (i < length (zsort ns))%nat) by (rewrite Lz; exact Hi).
    pose proof (proj2 (matrix_pointwise 0%Z _ L (zsort ns) M g i HP HM Hi')) as Q. rewrite Lz in Q. exact Q.
Qed.

Lemma mats_points_ok svd b L p : pointwise (RtoC 0) (sb_uhat b) L ->
  (is_ok (matsubara_sampling_at svd b p false) <->
   exists ns, check_reduced_matsubara p None = Ok ns /\ forall n, In n ns -> is_ok (sb_uhat b [n])).
Proof.
  intros HP. unfold matsubara_sampling_at. destruct (check_reduced_matsubara p None) as [ns|].
  2: { split; [intros [z E]; discriminate|intros (ns & E & _); discriminate]. }
  cbn [bind]. transitivity (is_ok (sb_uhat b (zsort ns))).
  - unfold matsubara_sampling. destruct (sb_uhat b (zsort ns)) as [M|e]; cbn [bind].
    + rewrite decomposed_none. cbn [bind]. split; intros _; eexists; reflexivity.
    + split; intros [z E]; discriminate.
  - rewrite (proj1 (HP (zsort ns))). split.
    + intros H. exists ns. split; [reflexivity|]. intros n I. apply H. eapply Permutation_in; [apply zsort_perm|exact I].
    + intros (ns' & E & H) n I. injection E as <-. apply H. eapply Permutation_in; [apply Permutation_sym, zsort_perm|exact I].
Qed.

Lemma int_reduced ns : check_reduced_matsubara (IntArr ns) None = Ok ns.
Proof. reflexivity. Qed.

(** The order of the points is ignored. *)
Lemma order_ignored svd s x k p p' : Permutation p p' ->
  m_evaluate svd s x k (Some (IntArr p)) = m_evaluate svd s x k (Some (IntArr p')) /\
  m_fit svd s x k (Some (IntArr p)) = m_fit svd s x k (Some (IntArr p')).
Proof.
  intros H. unfold m_evaluate, m_fit, matsubara_sampling_at. rewrite !int_reduced. cbn [bind].
  now rewrite (proj2 (zsort_eq_iff p p') H).
Qed.

(** The functions f_0(n) = n, as a basis of size one. *)
Definition line_basis : sbasis :=
  SBasis (fun x => Ok [map RtoC x]) (fun n => Ok [map (fun k => RtoC (IZR k)) n]) false.
Lemma line_pointwise : pointwise (RtoC 0) (sb_uhat line_basis) 1.
Proof.
  refine (proj1 (pointwise_of _ _ _ (fun _ => True) (fun l k => RtoC (IZR k)) _)). intros ps M. cbn. split.
  - intros [= <-]. split; [apply Forall_forall; auto|reflexivity].
  - intros [_ ->]. reflexivity.
Qed.

Lemma zsort_nth_sorted p : (forall i, (i < length p)%nat -> nth i (zsort p) 0%Z = nth i p 0%Z) -> StronglySorted Z.le p.
Proof.
  intros H. assert (E : zsort p = p).
  { apply (nth_ext _ _ 0%Z 0%Z); [symmetry; apply Permutation_length, zsort_perm|]. intros i Hi. apply H.
    rewrite (Permutation_length (zsort_perm p)). exact Hi. }
  rewrite <- E. apply zsort_sorted.
Qed.


Lemma vector_eval svd s L ns s' g : pointwise (RtoC 0) (sb_uhat (ms_basis s)) L ->
  matsubara_sampling_at svd (ms_basis s) (IntArr ns) (ms_positive s) = Ok s' ->
  exists y, m_evaluate svd s (vector L g) (Some 0%Z) (Some (IntArr ns)) = Ok y /\ shp y = [length ns] /\
    forall i, (i < length ns)%nat -> elt y [i] = expansion_at (sb_uhat (ms_basis s)) L (nth i (zsort ns) 0%Z) g.
Proof.
  intros HP E. pose proof (mats_points svd s L (IntArr ns) ns s' HP eq_refl E (vector L g) 0%Z) as W.
  cbn [vector shp length] in W. change (axis_of 1 0) with (Some 0%nat) in W. cbv iota in W. cbn [nth] in W. rewrite Nat.eqb_refl in W.
  destruct W as (y & E1 & S & E2). exists y. split; [exact E1|]. cbn [set_nth firstn skipn app shp vector] in S. split; [exact S|].
  intros i Hi. rewrite E2 by (rewrite S; repeat constructor; assumption). cbn [nth].
  unfold expansion_at. apply csumn_ext. intros l Hl. reflexivity.
Qed.

Lemma sorted_iff svd p : 
  (forall b L s, pointwise (RtoC 0) (sb_uhat b) L -> matsubara_sampling svd b [] false = Ok s ->
     (forall n, In n p -> is_ok (sb_uhat b [n])) ->
     forall g, exists y, m_evaluate svd s (vector L g) (Some 0%Z) (Some (IntArr p)) = Ok y /\ shp y = [length p] /\
       forall i, (i < length p)%nat -> elt y [i] = expansion_at (sb_uhat b) L (nth i p 0%Z) g) <->
  StronglySorted Z.le p.
Proof.
  split.
  - intros H. apply zsort_nth_sorted.
    destruct (matsubara_sampling svd line_basis [] false) as [s|] eqn:Es; [|unfold matsubara_sampling in Es; cbn in Es; discriminate].
    assert (Hs : ms_basis s = line_basis /\ ms_positive s = false).
    { destruct (mats_sampling_inv _ _ _ _ Es) as (M & _ & ->). auto. }
    destruct (H line_basis 1%nat s line_pointwise Es) with (g := fun _ : nat => RtoC 1) as (y & E1 & _ & E2).
    { intros n _. eexists. reflexivity. }
    destruct (proj2 (mats_points_ok svd line_basis 1%nat (IntArr p) line_pointwise)) as [s' Es'].
    { exists p. split; [reflexivity|]. intros n _. eexists; reflexivity. }
    destruct Hs as [Hs1 Hs2]. rewrite <- Hs1, <- Hs2 in Es'.
    destruct (vector_eval svd s 1 p s' (fun _ => RtoC 1)) as (y' & E1' & _ & E2'); auto; [rewrite Hs1; apply line_pointwise|].
    assert (y' = y) by congruence. subst y'.
    intros i Hi. specialize (E2 i Hi). specialize (E2' i Hi). rewrite E2 in E2'. rewrite Hs1 in E2'. unfold expansion_at in E2'. cbn in E2'.
    apply eq_IZR. apply (f_equal Re) in E2'. cbn in E2'. lra.
  - intros HS b L s HP Es Hok g. destruct (mats_sampling_inv _ _ _ _ Es) as (M & _ & Hs).
    destruct (proj2 (mats_points_ok svd b L (IntArr p) HP)) as [s' Es'].
    { exists p. split; [reflexivity|assumption]. }
    assert (B1 : ms_basis s = b) by (rewrite Hs; reflexivity). assert (B2 : ms_positive s = false) by (rewrite Hs; reflexivity).
    rewrite <- B1, <- B2 in Es'.
    destruct (vector_eval svd s L p s' g) as (y & E1 & E2 & E3); auto; [now rewrite B1|].
    exists y. split; [exact E1|]. split; [exact E2|]. intros i Hi. rewrite E3, B1 by assumption. now rewrite zsort_of_sorted.
Qed.

(** ** The zero frequency *)
Lemma zero_freq_real compute b l : built compute b -> Im (at_point (RtoC 0) (ft_call (buhat b)) 0%Z l) = 0.
Proof.
  intros Hb. destruct (uhat_pointwise compute b Hb [0%Z]) as [_ H2].
  destruct (built_inv compute b Hb) as (lam & q & f & f' & _ & _ & _ & _ & Hlam & Hp & _).
  destruct (ft_call (buhat b) [0%Z]) as [M|e] eqn:E; unfold at_point; rewrite E; [|reflexivity].
  destruct (H2 M eq_refl) as [HL HM].
  destruct (Nat.lt_ge_cases l (bsize b)) as [Hl|Hl].
  - destruct (ok_r compute b Hb) as (_ & _).
    assert (HR : exists f, represents (bu b) l f).
    { destruct (bu_fresh compute b Hb) as (Hg & Hgl & Hs). destruct (nth_error (vcols (bu b)) l) as [c|] eqn:Ec; [|apply nth_error_None in Ec; lia].
      exists (cval (vgeom (bu b)) c). apply represents_cval; auto; [lia|]. exists c. auto. }
    destruct HR as [F HF].
    destruct (uhat_phys compute b Hb lam l F [0%Z] M 0 0%Z Hlam E Hl eq_refl) as (v & Ev & _ & Hv); [|exact HF|].
    { rewrite Rabs_R0. lra. }
    unfold entry in Ev. destruct (nth_error M l) as [row|] eqn:Er; [|discriminate].
    rewrite (nth_error_nth_d _ _ _ [] Er), (nth_error_nth_d _ _ _ (RtoC 0) Ev).
    apply (is_RInt_unique (V := R_CompleteNormedModule)) in Hv. rewrite <- Hv. 
    rewrite (RInt_ext _ (fun _ => 0)).
    + rewrite RInt_const. unfold scal; cbn; unfold mult; cbn. ring.
    + intros x _. cbv beta. replace (PI * 0 * x / bbeta b) with 0 by (unfold Rdiv; ring). rewrite sin_0. apply Rmult_0_l.
  - rewrite (nth_overflow M) by lia. reflexivity.
Qed.
