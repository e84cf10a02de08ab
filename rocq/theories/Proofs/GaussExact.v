(** Gauss-Legendre quadrature: recurrence evaluation, Newton loop, exactness,
    collocation. *)
From Coquelicot Require Import Coquelicot.
From Coq Require Import List Reals Arith Bool Lia Lra Sorting.
From Verif.Model Require Import Base Num Gauss.
From Verif.Spec Require Import SGauss.
From Verif.Proofs Require Import BaseFacts SumFacts IntFacts LegFacts PolyFacts GaussFacts.
Import ListNotations.
Open Scope R_scope.

(** * The recurrence *)
Lemma family_derive alpha beta Q : recurrence_family alpha beta Q ->
  forall m x, let '(p1, dp1, p0, dp0) := polyvalderiv_loop m alpha beta x in
    p1 = Q (S m) x /\ is_derive (Q (S m)) x dp1 /\ p0 = Q m x /\ is_derive (Q m) x dp0.
Proof.
  intros (H0 & H1 & HS) m x. induction m as [|m IH].
  - simpl. rewrite H0, H1. split; [lra|]. split; [|split; [lra|]].
    + apply (is_derive_ext (fun t => t - alpha 0%nat)); [intros; symmetry; apply H1|].
      auto_derive; auto; ring.
    + apply (is_derive_ext (fun t => 1)); [intros; symmetry; apply H0|].
      apply (is_derive_const (V := R_NormedModule)).
  - simpl. destruct (polyvalderiv_loop m alpha beta x) as [[[p1 dp1] p0] dp0].
    destruct IH as (-> & D1 & -> & D0). rewrite HS. split; [lra|]. split; [|split; auto].
    apply (is_derive_ext (fun t => (t - alpha (S m)) * Q (S m) t - beta (S m) * Q m t)).
    { intros; symmetry; apply HS. }
    auto_derive; [repeat split; eexists; eauto|].
    rewrite (Derive_eta _ _ _ D0), (Derive_eta _ _ _ D1). ring.
Qed.

Lemma polyvalderiv_ok alpha beta Q n x :
  recurrence_family alpha beta Q -> (1 <= n)%nat ->
  exists p dp p0 dp0, polyvalderiv n alpha beta x = Ok (p, dp, p0, dp0) /\
    p = Q n x /\ is_derive (Q n) x dp /\ p0 = Q (n - 1)%nat x /\ is_derive (Q (n - 1)%nat) x dp0.
Proof.
  intros HQ Hn. destruct n as [|m]; [lia|]. simpl. rewrite Nat.sub_0_r.
  pose proof (family_derive alpha beta Q HQ m x) as H.
  destruct (polyvalderiv_loop m alpha beta x) as [[[p1 dp1] p0] dp0].
  exists p1, dp1, p0, dp0. auto.
Qed.

Lemma family_monic alpha beta Q : recurrence_family alpha beta Q ->
  forall n, exists r, polylt n r /\ forall x, Q n x = x ^ n + r x.
Proof.
  intros (H0 & H1 & HS). apply pair_ind.
  - exists (fun _ => 0). split; [apply polylt_zero|]. intros; rewrite H0; simpl; ring.
  - exists (fun _ => - alpha 0%nat). split; [apply polylt_const|]. intros; rewrite H1; simpl; ring.
  - intros k (r0 & P0 & E0) (r1 & P1 & E1).
    exists (fun x => r1 x * x ^ 1 - alpha (S k) * Q (S k) x - beta (S k) * Q k x). split.
    + assert (L : forall n r, polylt n r -> (forall x, Q n x = x ^ n + r x) -> polylt (S n) (Q n)).
      { intros n r P E. apply (polylt_ext _ (fun x => x ^ n + r x)); [intros; rewrite E; auto|].
        apply polylt_plus; [apply polylt_pow|apply (polylt_mono n); auto]. }
      apply polylt_minus; [apply polylt_minus|].
      * replace (S (S k)) with (S k + 1)%nat by lia. apply polylt_mulpow; auto.
      * apply polylt_scal. eapply L; eauto.
      * apply polylt_scal. apply (polylt_mono (S k)); [lia|]. eapply L; eauto.
    + intros x. rewrite HS, E1. simpl. ring.
Qed.

(** The family of a recurrence. *)
Fixpoint fampair (alpha beta : nat -> R) (n : nat) (x : R) : R * R :=
  match n with
  | O => (1, x - alpha 0%nat)
  | S m => let '(q0, q1) := fampair alpha beta m x in
           (q1, (x - alpha (S m)) * q1 - beta (S m) * q0)
  end.
Definition family alpha beta n x := fst (fampair alpha beta n x).
Lemma family_ok alpha beta : recurrence_family alpha beta (family alpha beta).
Proof.
  assert (E : forall n x, snd (fampair alpha beta n x) = family alpha beta (S n) x).
  { intros n x. unfold family. simpl. destruct (fampair alpha beta n x); auto. }
  repeat split; auto. intros n x. rewrite <- (E (S n)), <- (E n). unfold family.
  simpl fampair. destruct (fampair alpha beta n x); auto.
Qed.

(** * Newton loop *)
Lemma rmax_list_largest l m : rmax_list (map Rabs l) = Some m <-> largest l m.
Proof.
  unfold largest. revert m. induction l as [|x l IH]; intros m.
  - simpl. split; [discriminate|tauto].
  - simpl map. cbn [rmax_list]. destruct (rmax_list (map Rabs l)) as [m'|] eqn:E.
    + destruct (proj1 (IH m') eq_refl) as [Hin Hall]. split.
      * intros [= <-]. split.
        -- simpl. unfold Rmax. destruct (Rle_dec (Rabs x) m'); auto.
        -- constructor; [apply Rmax_l|]. eapply Forall_impl; [|exact Hall]. simpl.
           intros a Ha. eapply Rle_trans; [exact Ha|apply Rmax_r].
      * intros [Hin' Hall']. inversion Hall' as [|? ? Hx Hl]; subst. f_equal.
        rewrite Forall_forall in Hall, Hl. apply in_map_iff in Hin as (y & <- & Hy).
        simpl in Hin'. unfold Rmax. destruct (Rle_dec (Rabs x) (Rabs y)) as [Hle|Hgt].
        -- destruct Hin' as [<-|Hin']; [apply Rle_antisym; auto|].
           apply in_map_iff in Hin' as (z & <- & Hz). apply Rle_antisym; auto.
        -- destruct Hin' as [|Hin']; auto. apply in_map_iff in Hin' as (z & <- & Hz).
           specialize (Hall z Hz). lra.
    + destruct l; [|simpl in E; destruct (rmax_list (map Rabs l)); discriminate].
      simpl. split; [intros [= <-]; split; auto; constructor; auto; lra|].
      intros [[|[]] _]. congruence.
Qed.

Definition prev_diff (d : nat -> R) (k : nat) : R := match k with O => 1 | S j => d j end.

Lemma newton_points_shift corr sub k x :
  newton_points corr sub k (map2 sub x (corr x)) = newton_points corr sub (S k) x.
Proof. induction k; simpl in *; [auto|]. rewrite IHk. reflexivity. Qed.

Lemma newton_loop_spec corr sub : forall iters p x (d : nat -> R),
  (forall k, (k < iters)%nat -> largest (corr (newton_points corr sub k x)) (d k)) ->
  let prev := fun k => match k with O => p | S j => d j end in
  (forall k, (k < iters)%nat -> (forall j, (j < k)%nat -> 2 * d j <= prev j) -> prev k < 2 * d k ->
     newton_loop iters corr sub p x = Ok (newton_points corr sub (S k) x)) /\
  ((forall k, (k < iters)%nat -> 2 * d k <= prev k) -> newton_loop iters corr sub p x = Raise AttributeError).
Proof.
  induction iters as [|it IH]; intros p x d Hd prev.
  - split; [intros; lia|reflexivity].
  - cbn [newton_loop]. pose proof (Hd 0%nat ltac:(lia)) as H0. simpl in H0.
    apply rmax_list_largest in H0. rewrite H0.
    assert (Hd' : forall k, (k < it)%nat -> largest (corr (newton_points corr sub k (map2 sub x (corr x)))) (d (S k))).
    { intros k Hk. rewrite newton_points_shift. apply Hd. lia. }
    specialize (IH (d 0%nat) (map2 sub x (corr x)) (fun k => d (S k)) Hd'). cbv zeta in IH. destruct IH as [IH1 IH2].
    split.
    + intros k Hk Hj Hgt. destruct k as [|k].
      * simpl in Hgt. destruct (Rleb_spec (2 * d 0%nat) p); [lra|]. reflexivity.
      * pose proof (Hj 0%nat ltac:(lia)) as Hj0. simpl in Hj0.
        destruct (Rleb_spec (2 * d 0%nat) p); [|lra].
        rewrite <- newton_points_shift. apply IH1; [lia| |].
        -- intros j Hjk. specialize (Hj (S j) ltac:(lia)). destruct j; exact Hj.
        -- destruct k; exact Hgt.
    + intros Hall. pose proof (Hall 0%nat ltac:(lia)) as Hj0. simpl in Hj0.
      destruct (Rleb_spec (2 * d 0%nat) p); [|lra]. apply IH2.
      intros k Hk. specialize (Hall (S k) ltac:(lia)). destruct k; exact Hall.
Qed.

(** First index at which a decidable property of a bounded range holds. *)
Lemma first_index (P : nat -> Prop) n : (forall k, P k \/ ~ P k) ->
  (exists k, (k < n)%nat /\ P k /\ forall j, (j < k)%nat -> ~ P j) \/ (forall k, (k < n)%nat -> ~ P k).
Proof.
  intros Hdec. induction n as [|n [(k & Hk & HP & Hj)|IH]].
  - right. intros; lia.
  - left. exists k. repeat split; auto.
  - destruct (Hdec n) as [Hn|Hn]; [left; exists n; auto|right].
    intros k Hk. destruct (Nat.eq_dec k n) as [->|]; auto. apply IH; lia.
Qed.

Lemma newton_ok_iff iters corr sub p x d :
  (forall k, (k < iters)%nat -> largest (corr (newton_points corr sub k x)) (d k)) ->
  ((exists y, newton_loop iters corr sub p x = Ok y) <->
   exists k, (k < iters)%nat /\ match k with O => p | S j => d j end < 2 * d k) /\
  ((exists y, newton_loop iters corr sub p x = Ok y) \/ newton_loop iters corr sub p x = Raise AttributeError).
Proof.
  intros Hd. pose proof (newton_loop_spec corr sub iters p x d Hd) as [H1 H2]. cbv zeta in H1, H2.
  destruct (first_index (fun k => match k with O => p | S j => d j end < 2 * d k) iters) as [(k & Hk & HP & Hj)|Hn].
  { intros k. destruct (Rlt_dec (match k with O => p | S j => d j end) (2 * d k)); auto. }
  - assert (E : newton_loop iters corr sub p x = Ok (newton_points corr sub (S k) x)).
    { apply H1; auto. intros j Hjk. apply Rnot_lt_le. auto. }
    rewrite E. split; [|eauto]. split; eauto.
  - assert (E : newton_loop iters corr sub p x = Raise AttributeError).
    { apply H2. intros k Hk. apply Rnot_lt_le. auto. }
    rewrite E. split; [|auto]. split; [intros [y Hy]; discriminate|].
    intros (k & Hk & HP). exfalso. apply (Hn k); auto.
Qed.

Lemma rule_from_recurrence_newton n beta a b eig corr sub pvd :
  (1 <= n)%nat -> 0 <= b - a -> (forall k, (1 <= k < n)%nat -> 0 <= beta k) ->
  rule_from_recurrence n beta a b eig corr sub pvd =
  (do x <- newton_loop 5 corr sub 1 eig;
   Ok (rule_init x (gauss_weights pvd (b - a) x)
        (Some (map (fun t => t - a) x)) (Some (map (fun t => b - t) x)) a b)).
Proof.
  intros Hn Hab Hb. unfold rule_from_recurrence. destruct n as [|m]; [lia|].
  rewrite (proj2 (forallb_forall _ _)); auto. intros k Hk. apply in_seq in Hk.
  destruct k; [destruct (Rleb_spec 0 (b - a)); auto; lra|].
  destruct (Rleb_spec 0 (beta (S k))); auto. exfalso. apply n. apply Hb. lia.
Qed.

Lemma rule_ok_iff n beta a b eig corr sub pvd d :
  (1 <= n)%nat -> 0 <= b - a -> (forall k, (1 <= k < n)%nat -> 0 <= beta k) ->
  (forall k, (k < 5)%nat -> largest (corr (newton_points corr sub k eig)) (d k)) ->
  ((exists r, rule_from_recurrence n beta a b eig corr sub pvd = Ok r) <->
   exists k, (k < 5)%nat /\ match k with O => 1 | S j => d j end < 2 * d k) /\
  ((exists r, rule_from_recurrence n beta a b eig corr sub pvd = Ok r) \/
   rule_from_recurrence n beta a b eig corr sub pvd = Raise AttributeError).
Proof.
  intros Hn Hab Hb Hd. rewrite rule_from_recurrence_newton by auto.
  destruct (newton_ok_iff 5 corr sub 1 eig d Hd) as [H1 H2].
  rewrite <- H1. destruct (newton_loop 5 corr sub 1 eig) as [y|e]; simpl.
  - split; [|left; eexists; reflexivity]. split; intros _; eexists; reflexivity.
  - split; [split; intros [? ?]; discriminate|].
    destruct H2 as [[y H2]|H2]; [discriminate|]. right. injection H2 as ->. reflexivity.
Qed.

Lemma map2_sub_zero (sub : R -> R -> R) x l : length l = length x -> Forall (fun c => c = 0) l ->
  (forall t, In t x -> sub t 0 = t) -> map2 sub x l = x.
Proof.
  revert l. induction x as [|t x IH]; intros [|c l] Hl H0 Hs; auto; try discriminate.
  inversion H0; subst. cbn [map2]. rewrite Hs by (simpl; auto). f_equal. apply IH; auto.
  intros; apply Hs; simpl; auto.
Qed.

Lemma exact_start_fails n beta a b eig corr sub pvd :
  (1 <= n)%nat -> 0 <= b - a -> (forall k, (1 <= k < n)%nat -> 0 <= beta k) ->
  eig <> [] -> length (corr eig) = length eig -> Forall (fun c => c = 0) (corr eig) ->
  (forall t, In t eig -> sub t 0 = t) ->
  rule_from_recurrence n beta a b eig corr sub pvd = Raise AttributeError.
Proof.
  intros Hn Hab Hb Hne Hl H0 Hs. rewrite rule_from_recurrence_newton by auto.
  assert (E : map2 sub eig (corr eig) = eig) by (apply map2_sub_zero; auto).
  assert (Ek : forall k, newton_points corr sub k eig = eig).
  { induction k; simpl; auto. rewrite IHk. auto. }
  assert (Hlg : largest (corr eig) 0).
  { split.
    - destruct (corr eig) as [|c l]; [destruct eig; [congruence|discriminate]|].
      inversion H0; subst. simpl. left. apply Rabs_R0.
    - eapply Forall_impl; [|exact H0]. intros c ->. rewrite Rabs_R0. lra. }
  destruct (newton_loop_spec corr sub 5 1 eig (fun _ => 0)) as [_ H2].
  - intros k _. rewrite Ek. auto.
  - rewrite H2; auto. intros k _. destruct k; lra.
Qed.

(** * Weights *)
Lemma gauss_weights_sum pvd total x :
  rsum (map (fun t => let '(_, dp1, p0, _) := pvd t in 1 / (dp1 * p0)) x) <> 0 ->
  rsum (gauss_weights pvd total x) = total.
Proof.
  intros H. unfold gauss_weights. rewrite rsum_map_scal. field. auto.
Qed.

(** * Sums over lists of nodes *)
Lemma rsum_map_ext {A} (f g : A -> R) l : (forall t, In t l -> f t = g t) -> rsum (map f l) = rsum (map g l).
Proof. intros H. f_equal. apply map_ext_in. auto. Qed.
Lemma rsum_map_mulc {A} c (f : A -> R) l : rsum (map (fun t => c * f t) l) = c * rsum (map f l).
Proof. induction l; simpl; unfold rsum in *; simpl; [lra|rewrite IHl; lra]. Qed.
Lemma rsum_map_plus {A} (f g : A -> R) l : rsum (map (fun t => f t + g t) l) = rsum (map f l) + rsum (map g l).
Proof. induction l; simpl; unfold rsum in *; simpl; [lra|rewrite IHl; lra]. Qed.
Lemma rsum_single {A} (f : A -> R) l t : NoDup l -> In t l -> (forall s, In s l -> s <> t -> f s = 0) ->
  rsum (map f l) = f t.
Proof.
  intros Hnd Ht H. induction Hnd as [|x l Hni Hnd IH]; [destruct Ht|].
  simpl map. rewrite rsum_cons. destruct Ht as [->|Ht].
  - rewrite (rsum_map_ext f (fun _ => 0)).
    + replace (rsum (map (fun _ => 0) l)) with 0; [lra|]. clear. induction l; [reflexivity|]. cbn [map]. rewrite rsum_cons, <- IHl. lra.
    + intros s Hs. apply H; [right; auto|]. intros ->. auto.
  - rewrite IH; auto; [|intros; apply H; simpl; auto].
    rewrite H; [lra|left; auto|]. intros ->. auto.
Qed.
Lemma rsum_pos {A} (f : A -> R) l : l <> [] -> (forall t, In t l -> 0 < f t) -> 0 < rsum (map f l).
Proof.
  intros Hne H. destruct l as [|x l]; [congruence|]. simpl map. rewrite rsum_cons.
  assert (0 <= rsum (map f l)).
  { assert (Hl : forall t, In t l -> 0 < f t) by (intros; apply H; right; auto). clear - Hl.
    induction l; [unfold rsum; simpl; lra|]. cbn [map]. rewrite rsum_cons.
    pose proof (Hl a ltac:(left; auto)). specialize (IHl ltac:(intros; apply Hl; right; auto)). lra. }
  pose proof (H x ltac:(left; auto)). lra.
Qed.
Lemma is_RInt_rsum {A} (f : A -> R -> R) (v : A -> R) l a b :
  (forall t, In t l -> is_RInt (f t) a b (v t)) ->
  is_RInt (fun x => rsum (map (fun t => f t x) l)) a b (rsum (map v l)).
Proof.
  induction l as [|t l IH]; intros H.
  - simpl. unfold rsum; simpl. apply (is_RInt_eq _ a b ((b - a) * 0)); [apply is_RInt_constR|ring].
  - simpl map. rewrite rsum_cons.
    apply (is_RInt_fext (fun x => f t x + rsum (map (fun t => f t x) l))); [intros; reflexivity|].
    apply is_RInt_addR; [apply H; left; auto|apply IH; intros; apply H; right; auto].
Qed.
Lemma polylt_rsum {A} n (f : A -> R -> R) l : (forall t, In t l -> polylt n (f t)) ->
  polylt n (fun x => rsum (map (fun t => f t x) l)).
Proof.
  induction l as [|t l IH]; intros H; simpl; [apply polylt_zero|].
  apply polylt_plus; [apply H; left; auto|apply IH; intros; apply H; right; auto].
Qed.
Lemma quad_mapw l (g f : R -> R) : quad l (map g l) f = rsum (map (fun t => g t * f t) l).
Proof. induction l; auto. simpl map. rewrite quad_cons, rsum_cons, IHl. auto. Qed.

(** * Christoffel-Darboux kernel *)
Definition cdk (n : nat) (x y : R) : R := sumn n (fun k => (INR k + / 2) * (legP k x * legP k y)).

Lemma cdk_identity n x y :
  (x - y) * cdk (S n) x y = (INR n + 1) / 2 * (legP (S n) x * legP n y - legP n x * legP (S n) y).
Proof.
  unfold cdk. induction n.
  - simpl. rewrite !legP_0, !legP_1. lra.
  - rewrite sumn_S, Rmult_plus_distr_l, IHn. rewrite !legP_SS. rewrite !S_INR.
    pose proof (INR_nonneg n). field. lra.
Qed.

Lemma cdk_polylt n y : polylt n (fun x => cdk n x y).
Proof.
  apply polylt_sumn. intros k Hk.
  apply (polylt_ext _ (fun x => ((INR k + / 2) * legP k y) * legP k x)); [intros; ring|].
  apply polylt_scal. apply (polylt_mono (S k)); [lia|apply legP_polylt].
Qed.

Lemma cdk_continuous n x y : continuous (fun t => cdk n t y) x.
Proof. eapply polylt_continuous. apply cdk_polylt. Qed.

Lemma is_RInt_legP k : is_RInt (legP k) (-1) 1 (if Nat.eqb k 0 then 2 else 0).
Proof.
  rewrite <- RInt_legP. apply is_RInt_val. apply ex_RInt_cont. intros; apply continuous_legP.
Qed.

Lemma RInt_cdk n y : is_RInt (fun x => cdk (S n) x y) (-1) 1 1.
Proof.
  unfold cdk.
  pose proof (RInt_sumn (S n) (fun k x => (INR k + / 2) * (legP k x * legP k y)) (-1) 1) as H.
  eapply is_RInt_eq.
  - apply H. intros k _. apply ex_RInt_cont. intros x. apply continuous_scal2.
    apply (continuous_ext (fun t => legP k y * legP k t)); [intros; toR; ring|].
    apply continuous_scal2, continuous_legP.
  - rewrite sumn_shift, sumn_zero.
    + rewrite (RInt_val _ _ _ 1); [lra|].
      apply (is_RInt_fext (fun _ => / 2)); [intros; rewrite !legP_0; simpl; ring|].
      eapply is_RInt_eq; [apply is_RInt_constR|lra].
    + intros k _. apply RInt_val.
      apply (is_RInt_fext (fun x => ((INR (S k) + / 2) * legP (S k) y) * legP (S k) x)); [intros; ring|].
      eapply is_RInt_eq; [apply is_RInt_scalR, is_RInt_legP|]. simpl. ring.
Qed.

(** Diagonal value at a zero of P_{n+1}. *)
Lemma cdk_diag n y : legP (S n) y = 0 ->
  cdk (S n) y y = (INR n + 1) / 2 * (dleg (S n) y * legP n y).
Proof.
  intros Hz.
  assert (D1 : is_derive (fun x => (x - y) * cdk (S n) x y) y (cdk (S n) y y)).
  { destruct (cdk_polylt (S n) y) as [c Hc].
    assert (Hex : ex_derive (fun x => cdk (S n) x y) y).
    { apply (ex_derive_ext (fun x => sumn (S n) (fun k => c k * x ^ k))); [intros; symmetry; apply Hc|].
      eexists. apply (is_derive_sumn (S n) (fun k x => c k * x ^ k) (fun k x => c k * (INR k * x ^ pred k))).
      intros k _. auto_derive; auto. ring. }
    auto_derive; auto. ring. }
  assert (D2 : is_derive (fun x => (x - y) * cdk (S n) x y) y ((INR n + 1) / 2 * (dleg (S n) y * legP n y))).
  { apply (is_derive_ext (fun x => (INR n + 1) / 2 * (legP (S n) x * legP n y - legP n x * legP (S n) y))).
    { intros t. symmetry. apply cdk_identity. }
    pose proof (is_derive_legP (S n) y) as E1. pose proof (is_derive_legP n y) as E0.
    auto_derive; [repeat split; eexists; eauto|].
    rewrite (Derive_eta _ _ _ E1), (Derive_eta _ _ _ E0), Hz. field. }
  apply is_derive_unique in D1. apply is_derive_unique in D2. congruence.
Qed.

Lemma cdk_offdiag n x y : legP (S n) x = 0 -> legP (S n) y = 0 -> x <> y -> cdk (S n) x y = 0.
Proof.
  intros Hx Hy Hne. pose proof (cdk_identity n x y) as H. rewrite Hx, Hy in H.
  assert ((x - y) * cdk (S n) x y = 0) by (rewrite H; ring).
  apply Rmult_integral in H0 as [|]; auto. lra.
Qed.

Lemma cdk_pos n y : / 2 <= cdk (S n) y y.
Proof.
  unfold cdk. rewrite sumn_shift. rewrite !legP_0. change (INR 0) with 0.
  assert (0 <= sumn n (fun i => (INR (S i) + / 2) * (legP (S i) y * legP (S i) y))).
  { apply sumn_nonneg. intros i _. apply Rmult_le_pos; [pose proof (INR_nonneg (S i)); lra|apply Rle_0_sqr]. }
  lra.
Qed.

(** The quadrature with weights 1/K(x_j, x_j) at the n distinct zeros of P_n. *)
Section Zeros.
Variables (n : nat) (l : list R).
Hypotheses (Hnd : NoDup l) (Hlen : length l = S n) (Hz : forall t, In t l -> legP (S n) t = 0).
Let lam (t : R) := / cdk (S n) t t.

Lemma lam_pos t : 0 < lam t.
Proof. apply Rinv_0_lt_compat. pose proof (cdk_pos n t). lra. Qed.

Lemma interpolate p : polylt (S n) p ->
  forall x, p x = rsum (map (fun t => lam t * p t * cdk (S n) x t) l).
Proof.
  intros Hp x.
  enough (H : forall x, (fun x => p x - rsum (map (fun t => lam t * p t * cdk (S n) x t) l)) x = 0).
  { specialize (H x). simpl in H. lra. }
  apply (poly_zeros (S n) _ l); auto; [| lia |].
  - apply polylt_minus; auto. apply (polylt_rsum (S n) (fun t x => lam t * p t * cdk (S n) x t)).
    intros t _. apply polylt_scal, cdk_polylt.
  - intros t Ht. rewrite (rsum_single _ l t); auto.
    + unfold lam. pose proof (cdk_pos n t). field. lra.
    + intros s Hs Hst. rewrite cdk_offdiag; auto. ring.
Qed.

Lemma exact_low p : polylt (S n) p -> is_RInt p (-1) 1 (quad l (map lam l) p).
Proof.
  intros Hp. rewrite quad_mapw.
  apply (is_RInt_fext (fun x => rsum (map (fun t => lam t * p t * cdk (S n) x t) l))).
  { intros x. symmetry. apply interpolate; auto. }
  apply (is_RInt_rsum (fun t x => lam t * p t * cdk (S n) x t) (fun t => lam t * p t)).
  intros t _. eapply is_RInt_eq; [apply is_RInt_scalR, RInt_cdk|]. ring.
Qed.

Lemma exact_gauss p : polylt (S n + S n) p -> is_RInt p (-1) 1 (quad l (map lam l) p).
Proof.
  intros Hp. destruct (poly_div (S n) (legP (S n)) (legP_leads (S n)) (S n) p Hp) as (g & s & Hg & Hs & E).
  assert (Eq : quad l (map lam l) p = quad l (map lam l) s).
  { apply quad_ext. intros t Ht. rewrite E, Hz by auto. ring. }
  rewrite Eq. apply (is_RInt_fext (fun x => legP (S n) x * g x + s x)); [intros; symmetry; apply E|].
  rewrite <- (Rplus_0_l (quad l (map lam l) s)). apply is_RInt_addR; [|apply exact_low; auto].
  destruct (graded_span legP (S n) legP_graded g Hg) as [c Hc].
  apply (is_RInt_fext (fun x => sumn (S n) (fun m => c m * (legP (S n) x * legP m x)))).
  { intros x. rewrite Hc, <- sumn_scal. apply sumn_ext. intros; ring. }
  eapply is_RInt_eq.
  - apply (RInt_sumn (S n) (fun m x => c m * (legP (S n) x * legP m x))).
    intros m _. apply ex_RInt_cont. intros x. apply continuous_scal2, continuous_mult2; apply continuous_legP.
  - apply sumn_zero. intros m Hm. apply RInt_val.
    eapply is_RInt_eq; [apply is_RInt_scalR, is_RInt_val, ex_legI|].
    change (RInt (fun x => legP (S n) x * legP m x) (-1) 1) with (legI (S n) m).
    rewrite legI_orth, (proj2 (Nat.eqb_neq (S n) m)) by lia. ring.
Qed.

Lemma lam_sum : rsum (map lam l) = 2.
Proof.
  assert (H : is_RInt (fun _ => 1) (-1) 1 (quad l (map lam l) (fun _ => 1))).
  { apply exact_low. apply (polylt_mono 1); [lia|apply polylt_const]. }
  apply RInt_val in H. rewrite quad_mapw in H.
  rewrite (rsum_map_ext _ lam) in H by (intros; ring). rewrite <- H.
  apply RInt_val. eapply is_RInt_eq; [apply is_RInt_constR|lra].
Qed.
End Zeros.

(** * Monic Legendre polynomials *)
Lemma legendre_family_P Q : recurrence_family legendre_alpha legendre_beta Q ->
  forall n, exists kap, 0 < kap /\ forall x, legP n x = kap * Q n x.
Proof.
  intros (H0 & H1 & HS).
  enough (H : forall n, exists kap, 0 < kap /\ (forall x, legP n x = kap * Q n x) /\
                          (forall x, legP (S n) x = kap * (2 * INR n + 1) / (INR n + 1) * Q (S n) x)).
  { intros n. destruct (H n) as (k & ? & ? & _). eauto. }
  induction n as [|n (k & Hk & E0 & E1)].
  - exists 1. split; [lra|]. split; intros x.
    + rewrite legP_0, H0. lra.
    + rewrite legP_1, H1. unfold legendre_alpha. simpl. field.
  - pose proof (INR_nonneg n) as Pn.
    exists (k * (2 * INR n + 1) / (INR n + 1)). split; [|split; auto].
    { apply Rdiv_lt_0_compat; [apply Rmult_lt_0_compat; lra|lra]. }
    intros x. rewrite legP_SS, HS, E0, E1. unfold legendre_alpha, legendre_beta. rewrite S_INR.
    field. repeat split; try lra.
    replace (4 * (INR n + 1) ^ 2 - 1) with ((2 * INR n + 1) * (2 * INR n + 3)) by ring.
    apply Rmult_integral_contrapositive_currified; lra.
Qed.

(** The weights computed from the recurrence at the zeros are 1/K. *)
Lemma raw_weight n t : legP (S n) t = 0 ->
  exists c, (0 < c) /\ (forall s, legP (S n) s = 0 ->
    (let '(_, dp1, p0, _) := polyvalderiv_loop n legendre_alpha legendre_beta s in 1 / (dp1 * p0))
    = c * / cdk (S n) s s).
Proof.
  intros _. set (Q := family legendre_alpha legendre_beta).
  pose proof (family_ok legendre_alpha legendre_beta) as HQ. fold Q in HQ.
  destruct (legendre_family_P Q HQ (S n)) as (k1 & Hk1 & E1).
  destruct (legendre_family_P Q HQ n) as (k0 & Hk0 & E0).
  pose proof (INR_nonneg n).
  exists (k1 * k0 * ((INR n + 1) / 2)). split.
  { repeat apply Rmult_lt_0_compat; lra. }
  intros s Hs. pose proof (family_derive _ _ Q HQ n s) as Hd.
  destruct (polyvalderiv_loop n legendre_alpha legendre_beta s) as [[[p1 dp1] p0] dp0].
  destruct Hd as (_ & D1 & -> & _).
  rewrite (cdk_diag n s Hs).
  assert (Ed : dleg (S n) s = k1 * dp1).
  { pose proof (is_derive_legP (S n) s) as D. apply is_derive_unique in D. rewrite <- D.
    apply is_derive_unique. apply (is_derive_ext (fun t => k1 * Q (S n) t)); [intros; symmetry; apply E1|].
    apply (is_derive_scal (Q (S n)) s k1 dp1 D1). }
  pose proof (cdk_pos n s) as Hp. rewrite (cdk_diag n s Hs), Ed, E0 in Hp.
  rewrite Ed, E0. field.
  assert (Hne : (INR n + 1) / 2 * (k1 * dp1 * (k0 * Q n s)) <> 0) by lra.
  repeat split; try lra; intros Heq; apply Hne; rewrite Heq; ring.
Qed.

Lemma gauss_weights_lam n l : NoDup l -> length l = S n -> (forall t, In t l -> legP (S n) t = 0) ->
  gauss_weights (polyvalderiv_loop n legendre_alpha legendre_beta) 2 l = map (fun t => / cdk (S n) t t) l.
Proof.
  intros Hnd Hlen Hz. unfold gauss_weights.
  destruct l as [|t0 l0] eqn:El; [discriminate|]. rewrite <- El in *.
  destruct (raw_weight n t0) as (c & Hc & Hw); [apply Hz; rewrite El; left; auto|].
  pose proof (map_ext_in _ _ l (fun t Ht => Hw t (Hz t Ht))) as Em. rewrite Em. clear Em.
  rewrite rsum_map_mulc, (lam_sum n l) by auto. rewrite map_map. apply map_ext_in.
  intros t _. field. pose proof (cdk_pos n t). lra.
Qed.

Lemma legendre_rule_exact n l :
  (1 <= n)%nat -> NoDup l -> length l = n ->
  (forall t, In t l -> family legendre_alpha legendre_beta n t = 0) ->
  let w := gauss_weights (polyvalderiv_loop (n - 1) legendre_alpha legendre_beta) 2 l in
  exact_to (2 * n - 1) l w (-1) 1 /\ Forall (fun t => 0 < t) w.
Proof.
  intros Hn Hnd Hlen Hz w. destruct n as [|n]; [lia|].
  assert (Hz' : forall t, In t l -> legP (S n) t = 0).
  { intros t Ht. destruct (legendre_family_P _ (family_ok _ _) (S n)) as (k & _ & E). rewrite E, Hz; auto. ring. }
  subst w. replace (S n - 1)%nat with n by lia. rewrite gauss_weights_lam by auto. split.
  - intros f Hf. apply (exact_gauss n l Hnd Hlen Hz'). unfold polynomial in Hf.
    replace (S n + S n)%nat with (S (2 * S n - 1)) by lia. auto.
  - rewrite Forall_map. apply Forall_forall. intros t _. apply lam_pos.
Qed.

(** * Collocation *)
Lemma nth_quad x w f : length x = length w ->
  quad x w f = sumn (length x) (fun j => nth j w 0 * f (nth j x 0)).
Proof.
  revert w. induction x as [|t x IH]; intros [|v w] H; simpl in H; try discriminate; [reflexivity|].
  rewrite quad_cons, IH by lia. simpl length. rewrite sumn_shift. reflexivity.
Qed.

Lemma colloc_right r n l m : (l + m <= 2 * n - 2)%nat -> length (rx r) = length (rw r) ->
  exact_to (2 * n - 2) (rx r) (rw r) (-1) 1 ->
  sumn (length (rx r)) (fun j => legendre_collocation r n l j * legP m (nth j (rx r) 0)) = if Nat.eqb l m then 1 else 0.
Proof.
  intros Hlm Hlen He. unfold legendre_collocation.
  rewrite (sumn_ext _ _ (fun j => (INR l + / 2) * (nth j (rw r) 0 * (legP l (nth j (rx r) 0) * legP m (nth j (rx r) 0))))) by (intros; ring).
  rewrite sumn_scal.
  rewrite <- (nth_quad (rx r) (rw r) (fun t => legP l t * legP m t)) by auto.
  assert (H : is_RInt (fun t => legP l t * legP m t) (-1) 1 (quad (rx r) (rw r) (fun t => legP l t * legP m t))).
  { apply He. apply (polylt_mono (S l + m)); [lia|]. apply polylt_mul; apply legP_polylt. }
  apply RInt_val in H. rewrite <- H. change (RInt _ _ _) with (legI l m). rewrite legI_orth.
  destruct (Nat.eqb_spec l m) as [->|]; [field; pose proof (INR_nonneg m); lra|ring].
Qed.

Lemma lagrange_exists l t : NoDup l -> In t l ->
  exists f, polylt (length l) f /\ f t = 1 /\ forall s, In s l -> s <> t -> f s = 0.
Proof.
  intros Hnd Ht.
  assert (Hg : forall m, ~ In t m -> exists f, polylt (S (length m)) f /\ f t = 1 /\ forall s, In s m -> f s = 0).
  { induction m as [|s m IH]; intros Hni.
    - exists (fun _ => 1). repeat split; [apply polylt_const|]. intros s [].
    - destruct IH as (f & Pf & F1 & F0); [intros H; apply Hni; right; auto|].
      assert (Hst : t - s <> 0) by (intros E; apply Hni; left; lra).
      exists (fun x => f x * (/ (t - s) * x + - s / (t - s))). repeat split.
      + simpl length. replace (S (S (length m))) with (S (length m) + 1)%nat by lia.
        apply (polylt_mul (S (length m)) 1); auto. apply polylt_lin.
      + rewrite F1. field. auto.
      + intros u [->|Hu]; [field; auto|rewrite F0 by auto; ring]. }
  apply in_split in Ht as (l1 & l2 & ->). apply NoDup_remove in Hnd as [Hnd Hni].
  destruct (Hg (l1 ++ l2) Hni) as (f & Pf & F1 & F0). exists f. repeat split; auto.
  - rewrite app_length in *. simpl. rewrite Nat.add_succ_r. auto.
  - intros s Hs Hst. apply F0. apply in_app_iff in Hs as [|[|]]; try congruence; apply in_app_iff; auto.
Qed.

Lemma colloc_left r n i j : (i < n)%nat -> (j < n)%nat -> length (rx r) = n -> length (rw r) = n -> NoDup (rx r) ->
  exact_to (2 * n - 2) (rx r) (rw r) (-1) 1 ->
  sumn n (fun l => legP l (nth i (rx r) 0) * legendre_collocation r n l j) = if Nat.eqb i j then 1 else 0.
Proof.
  intros Hi Hj Hlx Hlw Hnd He.
  set (t := nth j (rx r) 0).
  destruct (lagrange_exists (rx r) t Hnd) as (f & Pf & F1 & F0); [apply nth_In; lia|].
  rewrite Hlx in Pf. destruct (graded_span legP n legP_graded f Pf) as [c Hc].
  assert (Ec : forall m, (m < n)%nat -> c m = legendre_collocation r n m j).
  { intros m Hm.
    assert (H1 : is_RInt (fun x => legP m x * f x) (-1) 1 (quad (rx r) (rw r) (fun x => legP m x * f x))).
    { apply He. destruct n as [|n']; [lia|]. apply (polylt_mono (S m + n')); [lia|].
      apply polylt_mul; [apply legP_polylt|auto]. }
    assert (H2 : is_RInt (fun x => legP m x * f x) (-1) 1 (2 / (2 * INR m + 1) * c m)).
    { apply (is_RInt_fext (fun x => sumn n (fun k => c k * (legP m x * legP k x)))).
      { intros x. rewrite Hc, <- sumn_scal. apply sumn_ext. intros; ring. }
      eapply is_RInt_eq.
      - apply (RInt_sumn n (fun k x => c k * (legP m x * legP k x))).
        intros k _. apply ex_RInt_cont. intros x. apply continuous_scal2, continuous_mult2; apply continuous_legP.
      - rewrite (sumn_single n _ m Hm).
        + apply RInt_val. eapply is_RInt_eq; [apply is_RInt_scalR, is_RInt_val, ex_legI|].
          change (RInt (fun x => legP m x * legP m x) (-1) 1) with (legI m m).
          rewrite legI_orth, Nat.eqb_refl. ring.
        + intros k _ Hk. apply RInt_val. eapply is_RInt_eq; [apply is_RInt_scalR, is_RInt_val, ex_legI|].
          change (RInt (fun x => legP m x * legP k x) (-1) 1) with (legI m k).
          rewrite legI_orth, (proj2 (Nat.eqb_neq m k)) by auto. ring. }
    apply RInt_val in H1. apply RInt_val in H2. rewrite H2 in H1.
    rewrite nth_quad, Hlx in H1 by lia.
    rewrite (sumn_single n _ j Hj) in H1.
    - unfold legendre_collocation. fold t. fold t in H1. rewrite F1 in H1.
      pose proof (INR_nonneg m).
      replace (c m) with ((INR m + / 2) * (2 / (2 * INR m + 1) * c m)) by (field; lra).
      rewrite H1. ring.
    - intros k Hk Hkj. rewrite F0; [ring|apply nth_In; lia|].
      intros E. apply Hkj. apply (proj1 (NoDup_nth (rx r) 0) Hnd); auto; lia. }
  rewrite (sumn_ext n _ (fun l => c l * legP l (nth i (rx r) 0))) by (intros; rewrite Ec by auto; ring).
  rewrite <- Hc. destruct (Nat.eqb_spec i j) as [->|Hij]; [exact F1|].
  apply F0; [apply nth_In; lia|]. intros E. apply Hij. apply (proj1 (NoDup_nth (rx r) 0) Hnd); auto; lia.
Qed.
