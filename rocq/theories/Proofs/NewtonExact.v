(** The Newton loop in exact arithmetic. *)
From Coq Require Import Arith Bool Reals Lra Lia Psatz.
From Coquelicot Require Import Coquelicot.
From Coq Require Import List Sorting.Sorted.
From Verif.Model Require Import Base Num Gauss.
From Verif.Spec Require Import SGauss.
From Verif.Proofs Require Import BaseFacts SumFacts LegFacts PolyFacts GaussFacts GaussExact LegRoots.
Import ListNotations.
Open Scope R_scope.
Notation length := List.length.

Lemma loop_smooth alpha beta m : forall x,
  ex_derive (fun t => fst (fst (fst (polyvalderiv_loop m alpha beta t)))) x /\
  ex_derive (fun t => snd (fst (fst (polyvalderiv_loop m alpha beta t)))) x /\
  ex_derive (fun t => snd (fst (polyvalderiv_loop m alpha beta t))) x /\
  ex_derive (fun t => snd (polyvalderiv_loop m alpha beta t)) x.
Proof.
  induction m as [|m IH]; intros x.
  - cbn. repeat split; auto_derive; auto.
  - destruct (IH x) as (H1 & H2 & H3 & H4).
    assert (E : forall t, polyvalderiv_loop (S m) alpha beta t =
      ((t - alpha (S m)) * fst (fst (fst (polyvalderiv_loop m alpha beta t))) - beta (S m) * snd (fst (polyvalderiv_loop m alpha beta t)),
       fst (fst (fst (polyvalderiv_loop m alpha beta t))) + (t - alpha (S m)) * snd (fst (fst (polyvalderiv_loop m alpha beta t))) - beta (S m) * snd (polyvalderiv_loop m alpha beta t),
       fst (fst (fst (polyvalderiv_loop m alpha beta t))), snd (fst (fst (polyvalderiv_loop m alpha beta t))))).
    { intros t. cbn. destruct (polyvalderiv_loop m alpha beta t) as [[[p1 dp1] p0] dp0]. reflexivity. }
    set (p1 := fun t => fst (fst (fst (polyvalderiv_loop m alpha beta t)))) in *.
    set (d1 := fun t => snd (fst (fst (polyvalderiv_loop m alpha beta t)))) in *.
    set (p0 := fun t => snd (fst (polyvalderiv_loop m alpha beta t))) in *.
    set (d0 := fun t => snd (polyvalderiv_loop m alpha beta t)) in *.
    split; [|split; [|split]].
    + apply (ex_derive_ext (fun t => (t - alpha (S m)) * p1 t - beta (S m) * p0 t)); [intros t; rewrite E; reflexivity|]. auto_derive. auto.
    + apply (ex_derive_ext (fun t => p1 t + (t - alpha (S m)) * d1 t - beta (S m) * d0 t)); [intros t; rewrite E; reflexivity|]. auto_derive. auto.
    + apply (ex_derive_ext p1); [intros t; rewrite E; reflexivity|exact H1].
    + apply (ex_derive_ext d1); [intros t; rewrite E; reflexivity|exact H2].
Qed.

Section Step.
Variables (alpha beta : nat -> R) (m : nat).
Let pvd := polyvalderiv_loop m alpha beta.
Definition step_of (p : R -> R * R * R * R) (t : R) : R := let '(p, dp, _, _) := p t in p / dp.
Let q := step_of pvd.

Lemma q_eq t : q t = fst (fst (fst (pvd t))) / snd (fst (fst (pvd t))).
Proof. unfold q, step_of. destruct (pvd t) as [[[? ?] ?] ?]. reflexivity. Qed.

Lemma step_derive Q r : recurrence_family alpha beta Q -> Q (S m) r = 0 -> snd (fst (fst (pvd r))) <> 0 -> is_derive q r 1.
Proof.
  intros HQ Hr Hd. apply (is_derive_ext (fun t => fst (fst (fst (pvd t))) / snd (fst (fst (pvd t))))); [intros t; symmetry; apply q_eq|].
  destruct (loop_smooth alpha beta m r) as (H1 & H2 & _). fold pvd in H1, H2.
  set (p1 := fun t => fst (fst (fst (pvd t)))) in *. set (d1 := fun t => snd (fst (fst (pvd t)))) in *.
  assert (Ed : Derive p1 r = d1 r).
  { apply is_derive_unique. apply (is_derive_ext (Q (S m))).
    - intros t. pose proof (family_derive alpha beta Q HQ m t) as F. unfold p1, pvd. destruct (polyvalderiv_loop m alpha beta t) as [[[? ?] ?] ?]. cbn. symmetry. apply F.
    - pose proof (family_derive alpha beta Q HQ m r) as F. unfold d1, pvd. destruct (polyvalderiv_loop m alpha beta r) as [[[? ?] ?] ?]. cbn. apply F. }
  assert (Ep : p1 r = 0).
  { rewrite <- Hr. pose proof (family_derive alpha beta Q HQ m r) as F. unfold p1, pvd. destruct (polyvalderiv_loop m alpha beta r) as [[[? ?] ?] ?]. cbn. apply F. }
  change (is_derive (fun t => p1 t / d1 t) r 1). change (d1 r <> 0) in Hd.
  assert (D1 : is_derive p1 r (d1 r)) by (rewrite <- Ed; apply Derive_correct; exact H1).
  pose proof (is_derive_div p1 d1 r _ _ D1 (Derive_correct _ _ H2) Hd) as D.
  replace 1 with ((d1 r * d1 r - p1 r * Derive d1 r) / d1 r ^ 2); [exact D|]. rewrite Ep. field. exact Hd.
Qed.

Lemma step_near Q r : recurrence_family alpha beta Q -> Q (S m) r = 0 -> snd (fst (fst (pvd r))) <> 0 ->
  exists d, 0 < d /\ forall x, Rabs (x - r) < d -> Rabs (q x - (x - r)) <= / 4 * Rabs (x - r).
Proof.
  intros HQ Hr Hd. pose proof (step_derive Q r HQ Hr Hd) as D. apply is_derive_Reals in D.
  destruct (D (/ 4) ltac:(lra)) as [d Hlim]. exists d. split; [apply cond_pos|]. intros x Hx.
  assert (Q0 : q r = 0).
  { rewrite q_eq. replace (fst (fst (fst (pvd r)))) with 0; [unfold Rdiv; ring|]. rewrite <- Hr.
    pose proof (family_derive alpha beta Q HQ m r) as F. unfold pvd. destruct (polyvalderiv_loop m alpha beta r) as [[[? ?] ?] ?]. cbn. symmetry. apply F. }
  destruct (Req_dec x r) as [->|Hne]; [rewrite Q0; replace (0 - (r - r)) with 0 by ring; rewrite Rminus_eq_0, Rabs_R0; lra|].
  assert (Hh : x - r <> 0) by lra. specialize (Hlim (x - r) Hh Hx). rewrite Q0 in Hlim. replace (r + (x - r)) with x in Hlim by ring.
  replace (q x - (x - r)) with (((q x - 0) / (x - r) - 1) * (x - r)) by (field; exact Hh). rewrite Rabs_mult. apply Rmult_le_compat_r; [apply Rabs_pos|lra].
Qed.

Lemma steps_near Q roots : recurrence_family alpha beta Q -> Forall (fun r => Q (S m) r = 0 /\ snd (fst (fst (pvd r))) <> 0) roots ->
  exists d, 0 < d <= / 4 /\ forall r x, In r roots -> Rabs (x - r) < d -> Rabs (q x - (x - r)) <= / 4 * Rabs (x - r).
Proof.
  intros HQ. induction 1 as [|r roots [H1 H2] _ (d & Hd & IH)]; [exists (/ 4); split; [lra|intros ? ? []]|].
  destruct (step_near Q r HQ H1 H2) as (d' & Hd' & N). exists (Rmin d d'). split; [split; [apply Rmin_glb_lt; lra|eapply Rle_trans; [apply Rmin_l|lra]]|].
  intros r0 x [<-|Hin] Hx; [apply N|apply IH; auto]; (eapply Rlt_le_trans; [exact Hx|]); [apply Rmin_r|apply Rmin_l].
Qed.

Fixpoint points (k : nat) (x : R) : R := match k with O => x | S k => points k x - q (points k x) end.

Lemma points_map k eig : newton_points (exact_corr pvd) Rminus k eig = map (points k) eig.
Proof.
  induction k as [|k IH]; cbn; [symmetry; apply map_id|]. rewrite IH. unfold exact_corr. rewrite map_map.
  generalize eig. induction eig0 as [|e l IHl]; [reflexivity|]. cbn. f_equal. exact IHl.
Qed.

Lemma points_near r d x : (forall y, Rabs (y - r) < d -> Rabs (q y - (y - r)) <= / 4 * Rabs (y - r)) -> Rabs (x - r) < d ->
  forall k, Rabs (points k x - r) <= (/ 4) ^ k * Rabs (x - r) /\ Rabs (points k x - r) < d /\
    2 * Rabs (q (points (S k) x)) <= Rabs (q (points k x)) /\ Rabs (q (points k x)) <= 5 / 4 * Rabs (points k x - r).
Proof.
  intros N Hx.
  assert (St : forall y, Rabs (y - r) < d -> Rabs (y - q y - r) <= / 4 * Rabs (y - r) /\ Rabs (q y) <= 5 / 4 * Rabs (y - r) /\ 3 / 4 * Rabs (y - r) <= Rabs (q y)).
  { intros y Hy. specialize (N y Hy). replace (y - q y - r) with (- (q y - (y - r))) by ring. rewrite Rabs_Ropp. split; [exact N|].
    pose proof (Rabs_triang (q y - (y - r)) (y - r)) as T1. replace (q y - (y - r) + (y - r)) with (q y) in T1 by ring.
    pose proof (Rabs_triang_inv (y - r) (- (q y - (y - r)))) as T2. replace (y - r - - (q y - (y - r))) with (q y) in T2 by ring. rewrite Rabs_Ropp in T2. lra. }
  assert (B : forall k, Rabs (points k x - r) <= (/ 4) ^ k * Rabs (x - r) /\ Rabs (points k x - r) < d).
  { induction k as [|k [IH1 IH2]]; [cbn; split; [lra|exact Hx]|]. destruct (St _ IH2) as (S1 & _ & _). cbn [points pow]. pose proof (Rabs_pos (points k x - r)). split; lra. }
  intros k. destruct (B k) as [B1 B2]. destruct (B (S k)) as [_ B4]. split; [exact B1|]. split; [exact B2|].
  destruct (St _ B2) as (S1 & S2 & S3). destruct (St _ B4) as (_ & S5 & _). split; [|exact S2].
  cbn [points] in S5 |- *. pose proof (Rabs_pos (points k x - r)). lra.
Qed.

Lemma exact_newton Q a b roots : recurrence_family alpha beta Q -> 0 <= b - a -> (forall k, (1 <= k <= m)%nat -> 0 <= beta k) -> roots <> [] ->
  Forall (fun r => Q (S m) r = 0 /\ snd (fst (fst (pvd r))) <> 0) roots ->
  exists d, 0 < d /\ forall eig, Forall2 (fun x r => Rabs (x - r) < d) eig roots ->
    rule_from_recurrence (S m) beta a b eig (exact_corr pvd) Rminus pvd = Raise AttributeError /\
    forall k, Forall2 (fun y r => Rabs (y - r) <= (/ 4) ^ k * d) (newton_points (exact_corr pvd) Rminus k eig) roots.
Proof.
  intros HQ Hab Hb Hne HF. destruct (steps_near Q roots HQ HF) as (d & [Hd Hd4] & N). exists d. split; [exact Hd|]. intros eig He. split.
  - rewrite rule_from_recurrence_newton; auto; [|lia|intros k Hk; apply Hb; lia].
    assert (El : eig <> []) by (intros ->; inversion He; subst; congruence).
    assert (Hin : forall x, In x eig -> exists r, In r roots /\ Rabs (x - r) < d).
    { clear -He. induction He as [|x r l l' Hx _ IH]; [intros ? []|]. intros y [<-|Hy]; [exists r; split; [left|]; auto|]. destruct (IH y Hy) as (r' & ? & ?). exists r'. split; [right|]; auto. }
    pose (D := fun k => match rmax_list (map Rabs (exact_corr pvd (newton_points (exact_corr pvd) Rminus k eig))) with Some M => M | None => 0 end).
    assert (Mx : forall k, largest (map q (map (points k) eig)) (D k)).
    { intros k. unfold D. rewrite points_map. change (exact_corr pvd (map (points k) eig)) with (map q (map (points k) eig)).
      destruct (rmax_list (map Rabs (map q (map (points k) eig)))) as [M|] eqn:E; [apply rmax_list_largest; exact E|].
      destruct eig; [congruence|]. cbn in E. destruct (rmax_list _); discriminate. }
    assert (At : forall k, exists x, In x eig /\ D k = Rabs (q (points k x))).
    { intros k. destruct (Mx k) as [Hi _]. rewrite !map_map in Hi. apply in_map_iff in Hi as (x & <- & Hx). eauto. }
    assert (Up : forall k x, In x eig -> Rabs (q (points k x)) <= D k).
    { intros k x Hx. destruct (Mx k) as [_ Hf]. rewrite map_map, Forall_map, Forall_forall in Hf. exact (Hf x Hx). }
    rewrite (proj2 (newton_loop_spec (exact_corr pvd) Rminus 5 1 eig D (fun k _ => eq_ind_r (fun l => largest (exact_corr pvd l) (D k)) (Mx k) (points_map k eig)))); [reflexivity|].
    intros k _. destruct (At k) as (x & Hx & ->). destruct (Hin x Hx) as (r & Hr & Hxr).
    destruct k as [|k].
    + destruct (points_near r d x (fun y => N r y Hr) Hxr 0%nat) as (_ & P2 & _ & P4). cbn [points] in *. lra.
    + destruct (points_near r d x (fun y => N r y Hr) Hxr k) as (_ & _ & P3 & _). eapply Rle_trans; [exact P3|]. apply Up. exact Hx.
  - intros k. rewrite points_map. clear -He N. induction He as [|x r l l' Hx _ IH]; [constructor|]. cbn. constructor.
    + destruct (points_near r d x (fun y => N r y (or_introl eq_refl)) Hx k) as (P1 & _). eapply Rle_trans; [exact P1|]. apply Rmult_le_compat_l; [apply pow_le; lra|lra].
    + apply IH. intros r0 y Hr. apply N. right. exact Hr.
Qed.
End Step.

Lemma legendre_newton n l : (0 < n)%nat -> length l = n -> (forall t, In t l -> legP n t = 0) ->
  exists d, 0 < d /\ forall eig, Forall2 (fun x r => Rabs (x - r) < d) eig l ->
    let pvd := polyvalderiv_loop (n - 1) legendre_alpha legendre_beta in
    legendre_rule n eig (exact_corr pvd) Rminus pvd = Raise AttributeError /\
    forall k, Forall2 (fun y r => Rabs (y - r) <= (/ 4) ^ k * d) (newton_points (exact_corr pvd) Rminus k eig) l.
Proof.
  intros Hn Hl Hz. destruct n as [|m]; [lia|]. replace (S m - 1)%nat with m by lia. cbv zeta. cbn [legendre_rule].
  pose proof (family_ok legendre_alpha legendre_beta) as HQ. set (Q := family legendre_alpha legendre_beta) in *.
  apply (exact_newton legendre_alpha legendre_beta m Q (-1) 1 l HQ); [lra| |intros ->; discriminate|].
  - intros k Hk. unfold legendre_beta. destruct k as [|k]; [lia|]. apply Rmult_le_pos; [apply pow2_ge_0|]. left. apply Rinv_0_lt_compat.
    assert (1 <= INR (S k)) by (rewrite S_INR; pose proof (pos_INR k); lra). nra.
  - apply Forall_forall. intros t Ht. specialize (Hz t Ht). destruct (legendre_family_P Q HQ (S m)) as (k1 & Hk1 & E1). split.
    + rewrite E1 in Hz. apply Rmult_integral in Hz as [Hz|Hz]; [lra|exact Hz].
    + pose proof (cdk_pos m t) as Hp. rewrite (cdk_diag m t Hz) in Hp. intros E0.
      assert (Ed : dleg (S m) t = k1 * snd (fst (fst (polyvalderiv_loop m legendre_alpha legendre_beta t)))).
      { pose proof (is_derive_legP (S m) t) as D. apply is_derive_unique in D. rewrite <- D. apply is_derive_unique.
        apply (is_derive_ext (fun t => k1 * Q (S m) t)); [intros; symmetry; apply E1|].
        pose proof (family_derive _ _ Q HQ m t) as F. destruct (polyvalderiv_loop m legendre_alpha legendre_beta t) as [[[p1 dp1] p0] dp0]. cbn. apply (is_derive_scal (Q (S m)) t k1 dp1). apply F. }
      rewrite Ed, E0 in Hp. rewrite Rmult_0_r, Rmult_0_l, Rmult_0_r in Hp. lra.
Qed.
