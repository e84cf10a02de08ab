(** Legendre polynomials: recurrences, derivatives, end points, orthogonality. *)
From Coquelicot Require Import Coquelicot.
From Coq Require Import List Reals Arith Bool Lia Lra.
From Verif.Model Require Import Num.
From Verif.Proofs Require Import SumFacts IntFacts.
Open Scope R_scope.

Arguments legP : simpl never.
Lemma legP_0 x : legP 0 x = 1.
Proof. reflexivity. Qed.
Lemma legP_1 x : legP 1 x = x.
Proof. reflexivity. Qed.
Lemma legpair_snd k x : snd (legpair k x) = legP (S k) x.
Proof. unfold legP. simpl. destruct (legpair k x). reflexivity. Qed.
Lemma legP_SS k x :
  legP (S (S k)) x = ((2 * INR k + 3) * x * legP (S k) x - (INR k + 1) * legP k x) / (INR k + 2).
Proof.
  rewrite <- (legpair_snd (S k)). rewrite <- (legpair_snd k). unfold legP.
  simpl legpair. destruct (legpair k x). reflexivity.
Qed.
Lemma INR_nonneg k : 0 <= INR k.
Proof. apply pos_INR. Qed.

(** Multiplication form of the recurrence. *)
Lemma legP_rec k x :
  (INR k + 2) * legP (S (S k)) x = (2 * INR k + 3) * x * legP (S k) x - (INR k + 1) * legP k x.
Proof. rewrite legP_SS. field. pose proof (INR_nonneg k). lra. Qed.

(** Induction over pairs of neighbouring indices. *)
Lemma pair_ind (P : nat -> Prop) :
  P 0%nat -> P 1%nat -> (forall k, P k -> P (S k) -> P (S (S k))) -> forall k, P k.
Proof. intros H0 H1 H k. enough (P k /\ P (S k)) by tauto. induction k; split; try tauto; auto. apply H; tauto. Qed.

Lemma legP_opp k x : legP k (- x) = (-1) ^ k * legP k x.
Proof.
  revert k; apply pair_ind.
  - simpl; rewrite !legP_0; lra.
  - rewrite !legP_1; simpl; lra.
  - intros k H0 H1. rewrite !legP_SS, H0, H1. simpl. field. pose proof (INR_nonneg k). lra.
Qed.

Lemma legP_at_1 k : legP k 1 = 1.
Proof.
  revert k; apply pair_ind; auto.
  intros k H0 H1. rewrite legP_SS, H0, H1. field. pose proof (INR_nonneg k). lra.
Qed.
Lemma legP_at_m1 k : legP k (-1) = (-1) ^ k.
Proof. replace (-1) with (- (1)) at 1 by lra. rewrite legP_opp, legP_at_1. lra. Qed.

(** Differentiability.  [dleg] is the derivative given by the formula
    P'_{k+1} = P'_{k-1} + (2k+1) P_k. *)
Fixpoint dlegpair (k : nat) (x : R) : R * R :=
  match k with
  | O => (0, 1)
  | S m => let '(d0, d1) := dlegpair m x in (d1, d0 + (2 * INR m + 3) * legP (S m) x)
  end.
Definition dleg (k : nat) (x : R) : R := fst (dlegpair k x).
Arguments dleg : simpl never.
Lemma dlegpair_snd k x : snd (dlegpair k x) = dleg (S k) x.
Proof. unfold dleg. simpl. destruct (dlegpair k x). reflexivity. Qed.
Lemma dleg_0 x : dleg 0 x = 0.
Proof. reflexivity. Qed.
Lemma dleg_1 x : dleg 1 x = 1.
Proof. reflexivity. Qed.
Lemma dleg_SS k x : dleg (S (S k)) x = dleg k x + (2 * INR k + 3) * legP (S k) x.
Proof.
  rewrite <- (dlegpair_snd (S k)). unfold dleg. simpl dlegpair.
  destruct (dlegpair k x). reflexivity.
Qed.

(** x P'_{k+1} - P'_k = (k+1) P_{k+1}   and   P'_{k+1} - x P'_k = (k+1) P_k *)
Lemma dleg_ids k x :
  x * dleg (S k) x - dleg k x = (INR k + 1) * legP (S k) x /\
  dleg (S k) x - x * dleg k x = (INR k + 1) * legP k x.
Proof.
  induction k as [|k [IH1 IH2]].
  - rewrite dleg_0, dleg_1, legP_0, legP_1. simpl. split; lra.
  - rewrite dleg_SS. rewrite S_INR.
    pose proof (legP_rec k x) as Hrec. pose proof (INR_nonneg k).
    split.
    + replace (x * (dleg k x + (2 * INR k + 3) * legP (S k) x) - dleg (S k) x)
        with (- (dleg (S k) x - x * dleg k x) + (2 * INR k + 3) * x * legP (S k) x) by ring.
      rewrite IH2. lra.
    + replace (dleg k x + (2 * INR k + 3) * legP (S k) x - x * dleg (S k) x)
        with (- (x * dleg (S k) x - dleg k x) + (2 * INR k + 3) * legP (S k) x) by ring.
      rewrite IH1. lra.
Qed.


Lemma is_derive_legP k (x : R) : is_derive (legP k) x (dleg k x).
Proof.
  revert k; apply pair_ind.
  - apply (is_derive_ext (fun _ => 1)); [intros; reflexivity|]. rewrite dleg_0. apply (is_derive_const (V := R_NormedModule)).
  - apply (is_derive_ext (fun t => t)); [intros; reflexivity|]. rewrite dleg_1. apply (is_derive_id (K := R_AbsRing)).
  - intros k H0 H1. pose proof (INR_nonneg k).
    apply (is_derive_ext (fun t => ((2 * INR k + 3) * t * legP (S k) t - (INR k + 1) * legP k t) / (INR k + 2))).
    { intros t. symmetry. apply legP_SS. }
    auto_derive.
    { repeat split; eexists; eauto. }
    rewrite (Derive_eta _ _ _ H0), (Derive_eta _ _ _ H1).
    rewrite dleg_SS. pose proof (dleg_ids k x) as [I1 I2].
    replace (dleg k x) with (x * dleg (S k) x - (INR k + 1) * legP (S k) x) by lra.
    field. lra.
Qed.

Lemma continuous_legP k x : continuous (legP k) x.
Proof. apply (ex_derive_continuous (K := R_AbsRing) (V := R_NormedModule)). eexists. apply is_derive_legP. Qed.

(** * Integrals over [-1, 1] *)




Definition legI (j k : nat) : R := RInt (fun x => legP j x * legP k x) (-1) 1.

Lemma ex_legI j k : ex_RInt (fun x => legP j x * legP k x) (-1) 1.
Proof. apply ex_RInt_cont. intros; apply continuous_mult2; apply continuous_legP. Qed.

Lemma RInt_legP k : RInt (legP k) (-1) 1 = if Nat.eqb k 0 then 2 else 0.
Proof.
  destruct k.
  - simpl. rewrite (RInt_ext _ (fun _ => 1)) by (intros; apply legP_0).
    rewrite RInt_const. unfold scal; simpl; unfold mult; simpl. lra.
  - simpl. apply is_RInt_unique.
    assert (Hd : forall x, is_derive (fun t => / (2 * INR k + 3) * (legP (S (S k)) t - legP k t)) x (legP (S k) x)).
    { intros x. pose proof (is_derive_legP (S (S k)) x) as D2. pose proof (is_derive_legP k x) as D0.
      pose proof (INR_nonneg k).
      auto_derive.
      - repeat split; eexists; eauto.
      - rewrite (Derive_eta _ _ _ D0), (Derive_eta _ _ _ D2), dleg_SS. field. lra. }
    pose proof (is_RInt_derive (fun t => / (2 * INR k + 3) * (legP (S (S k)) t - legP k t)) (legP (S k)) (-1) 1
                  (fun x _ => Hd x) (fun x _ => continuous_legP (S k) x)) as H.
    eapply is_RInt_eq; [exact H|].
    unfold minus, plus, opp; simpl. rewrite !legP_at_1, !legP_at_m1.
    simpl. ring.
Qed.

Lemma legI_comm j k : legI j k = legI k j.
Proof. unfold legI. apply RInt_ext. intros; toR; ring. Qed.

(** <x P_j, P_k> computed in two ways. *)
Lemma legI_x j k :
  is_RInt (fun x => x * legP (S j) x * legP k x) (-1) 1
          (((INR j + 2) * legI (S (S j)) k + (INR j + 1) * legI j k) / (2 * INR j + 3)).
Proof.
  pose proof (INR_nonneg j).
  apply (is_RInt_ext (fun x => / (2 * INR j + 3) * ((INR j + 2) * (legP (S (S j)) x * legP k x)
                               + (INR j + 1) * (legP j x * legP k x)))).
  { intros x _. pose proof (legP_rec j x) as Hr.
    replace ((INR j + 2) * (legP (S (S j)) x * legP k x)) with ((INR j + 2) * legP (S (S j)) x * legP k x) by ring.
    rewrite Hr. toR. field. lra. }
  replace (((INR j + 2) * legI (S (S j)) k + (INR j + 1) * legI j k) / (2 * INR j + 3))
    with (scal (/ (2 * INR j + 3)) (plus (scal (INR j + 2) (legI (S (S j)) k)) (scal (INR j + 1) (legI j k))))
    by (unfold scal, plus; simpl; unfold mult; simpl; field; lra).
  apply (is_RInt_scal (V := R_CompleteNormedModule)).
  apply (is_RInt_plus (V := R_CompleteNormedModule));
    apply (is_RInt_scal (V := R_CompleteNormedModule)), (RInt_correct (V := R_CompleteNormedModule)), ex_legI.
Qed.

Lemma legI_0 k : legI 0 k = if Nat.eqb k 0 then 2 else 0.
Proof.
  rewrite <- RInt_legP. unfold legI. apply RInt_ext. intros; rewrite legP_0; toR; ring.
Qed.

Lemma legI_1 k : legI 1 k = if Nat.eqb k 1 then 2 / 3 else 0.
Proof.
  destruct k as [|k].
  - rewrite legI_comm, legI_0. reflexivity.
  - pose proof (legI_x k 0) as H.
    assert (E : legI 1 (S k) = ((INR k + 2) * legI (S (S k)) 0 + (INR k + 1) * legI k 0) / (2 * INR k + 3)).
    { unfold legI at 1. apply is_RInt_unique. refine (is_RInt_ext _ _ _ _ _ _ H).
      intros x _. rewrite legP_0, legP_1. simpl. toR. ring. }
    rewrite E, !(legI_comm _ 0), !legI_0. simpl.
    destruct k; simpl; [lra|]. field. pose proof (INR_nonneg (S k)). simpl in *. lra.
Qed.

Lemma legI_step j k :
  ((INR j + 2) * legI (S (S j)) (S k) + (INR j + 1) * legI j (S k)) / (2 * INR j + 3) =
  ((INR k + 2) * legI (S j) (S (S k)) + (INR k + 1) * legI (S j) k) / (2 * INR k + 3).
Proof.
  pose proof (legI_x j (S k)) as H1. pose proof (legI_x k (S j)) as H2.
  rewrite (legI_comm (S (S k))), (legI_comm k) in H2.
  apply RInt_val in H1. apply RInt_val in H2. rewrite <- H1, <- H2.
  apply RInt_ext. intros; toR; ring.
Qed.

Lemma legI_orth j : forall k, legI j k = if Nat.eqb j k then 2 / (2 * INR k + 1) else 0.
Proof.
  revert j; apply (pair_ind (fun j => forall k, legI j k = if Nat.eqb j k then 2 / (2 * INR k + 1) else 0)).
  - intros k. rewrite legI_0. destruct k; simpl; auto. lra.
  - intros k. rewrite legI_1. destruct k as [|[|k]]; simpl; auto. lra.
  - intros j IH0 IH1 k. destruct k as [|k].
    { rewrite legI_comm, legI_0. reflexivity. }
    pose proof (legI_step j k) as H. rewrite IH0, !IH1 in H.
    pose proof (INR_nonneg j) as Pj. pose proof (INR_nonneg k) as Pk.
    assert (E : legI (S (S j)) (S k) =
      ((2 * INR j + 3) * (((INR k + 2) * (if Nat.eqb (S j) (S (S k)) then 2 / (2 * INR (S (S k)) + 1) else 0)
        + (INR k + 1) * (if Nat.eqb (S j) k then 2 / (2 * INR k + 1) else 0)) / (2 * INR k + 3))
       - (INR j + 1) * (if Nat.eqb j (S k) then 2 / (2 * INR (S k) + 1) else 0)) / (INR j + 2)).
    { rewrite <- H. field. lra. }
    rewrite E. clear E H.
    destruct (Nat.eqb_spec (S (S j)) (S k)) as [E1|N1].
    + assert (k = S j) by lia. subst k.
      rewrite Nat.eqb_refl. rewrite (proj2 (Nat.eqb_neq (S j) (S (S (S j))))) by lia.
      rewrite (proj2 (Nat.eqb_neq j (S (S j)))) by lia. rewrite !S_INR in *. field. lra.
    + destruct (Nat.eqb_spec (S j) (S (S k))) as [E2|N2].
      * assert (j = S k) by lia. subst j.
        rewrite (proj2 (Nat.eqb_neq (S (S k)) k)) by lia. rewrite Nat.eqb_refl.
        rewrite !S_INR in *. field. lra.
      * rewrite (proj2 (Nat.eqb_neq (S j) k)) by lia. rewrite (proj2 (Nat.eqb_neq j (S k))) by lia.
        field. lra.
Qed.

(** Derivative of a Legendre series. *)
Lemma dleg_sum k x :
  dleg k x = sumn k (fun j => if Nat.odd (k - j) then (2 * INR j + 1) * legP j x else 0).
Proof.
  revert k; apply pair_ind.
  - reflexivity.
  - rewrite dleg_1. simpl. rewrite legP_0. lra.
  - intros k IH0 _. rewrite dleg_SS, IH0. rewrite !sumn_S.
    replace (S (S k) - S k)%nat with 1%nat by lia. replace (S (S k) - k)%nat with 2%nat by lia.
    change (Nat.odd 1) with true. change (Nat.odd 2) with false. cbv iota.
    rewrite (sumn_ext k (fun j => if Nat.odd (S (S k) - j) then (2 * INR j + 1) * legP j x else 0) (fun j => if Nat.odd (k - j) then (2 * INR j + 1) * legP j x else 0)).
    + rewrite S_INR. lra.
    + intros j Hj. replace (S (S k) - j)%nat with (S (S (k - j))) by lia. reflexivity.
Qed.


Lemma is_derive_legval n c x :
  is_derive (legval n c) x (legval (legder1_len n) (legder1 n c) x).
Proof.
  assert (E : legval (legder1_len n) (legder1 n c) x = sumn n (fun k => c k * dleg k x)).
  { unfold legval, legder1, legder1_len.
    rewrite (sumn_ext _ _ (fun k => sumn n (fun j => (if (k <? j)%nat && Nat.odd (j - k) then c j else 0) * ((2 * INR k + 1) * legP k x)))).
    2:{ intros k _. rewrite sumn_scal_r. ring. }
    rewrite sumn_swap. apply sumn_ext. intros j Hj.
    rewrite dleg_sum. rewrite <- sumn_scal.
    rewrite (sumn_le_extend j).
    - apply sumn_ext. intros k Hk. apply Nat.ltb_lt in Hk. rewrite Hk. simpl.
      destruct (Nat.odd (j - k)); lra.
    - lia.
    - intros k Hk. rewrite (proj2 (Nat.ltb_ge k j)) by lia. simpl. lra. }
  rewrite E. unfold legval.
  apply (is_derive_sumn n (fun k t => c k * legP k t) (fun k t => c k * dleg k t)).
  intros k _. apply (is_derive_scal (legP k) x (c k) (dleg k x)), is_derive_legP.
Qed.

Lemma continuous_legval n c x : continuous (legval n c) x.
Proof. apply continuous_sumn. intros i _. apply continuous_scal2, continuous_legP. Qed.

Lemma legval_ext n c d x : (forall k, (k < n)%nat -> c k = d k) -> legval n c x = legval n d x.
Proof. intros H. apply sumn_ext. intros k Hk. rewrite H; auto. Qed.

(** Parseval for Legendre series of the same length. *)
Lemma RInt_legval_prod n c d :
  is_RInt (fun x => legval n c x * legval n d x) (-1) 1
          (sumn n (fun k => 2 / (2 * INR k + 1) * (c k * d k))).
Proof.
  apply (is_RInt_ext (fun x => sumn n (fun i => sumn n (fun j => (c i * d j) * (legP i x * legP j x))))).
  { intros x _. unfold legval. rewrite sumn_mul. apply sumn_ext. intros i _. apply sumn_ext. intros j _. toR. ring. }
  assert (Hex : forall i j, ex_RInt (fun x => (c i * d j) * (legP i x * legP j x)) (-1) 1).
  { intros i j. apply ex_RInt_cont. intros x. apply continuous_scal2, continuous_mult2; apply continuous_legP. }
  replace (sumn n (fun k => 2 / (2 * INR k + 1) * (c k * d k)))
    with (sumn n (fun i => RInt (fun x => sumn n (fun j => (c i * d j) * (legP i x * legP j x))) (-1) 1)).
  { apply (RInt_sumn n (fun i x => sumn n (fun j => (c i * d j) * (legP i x * legP j x)))).
    intros i _. eexists. apply (RInt_sumn n (fun j x => (c i * d j) * (legP i x * legP j x))). intros; apply Hex. }
  apply sumn_ext. intros i Hi.
  rewrite (is_RInt_unique _ _ _ _ (RInt_sumn n (fun j x => (c i * d j) * (legP i x * legP j x)) (-1) 1 (fun j _ => Hex i j))).
  rewrite (sumn_ext n _ (fun j => if Nat.eqb j i then 2 / (2 * INR i + 1) * (c i * d i) else 0)).
  - apply (sumn_delta n i (fun _ => 2 / (2 * INR i + 1) * (c i * d i))); auto.
  - intros j _. rewrite (RInt_scal (V := R_CompleteNormedModule)) by apply ex_legI.
    change (RInt (fun x => legP i x * legP j x) (-1) 1) with (legI i j). rewrite legI_orth.
    unfold scal; simpl; unfold mult; simpl. rewrite (Nat.eqb_sym j i).
    destruct (Nat.eqb_spec i j) as [->|]; lra.
Qed.
