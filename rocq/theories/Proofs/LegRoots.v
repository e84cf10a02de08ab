(** The zeros of the Legendre polynomials: P_n has n distinct zeros in (-1, 1),
    so that the Gauss rule of every order exists. *)
From Coq Require Import Reals Lra Lia Psatz.
From Coquelicot Require Import Coquelicot.
From Coq Require Import List Sorting.Sorted Arith.
From Verif.Model Require Import Base Num Gauss SVE.
From Verif.Spec Require Import SGauss SCompute.
From Verif.Proofs Require Import SumFacts IntFacts LegFacts PolyFacts GaussFacts GaussExact.
Import ListNotations.
Open Scope R_scope.
Notation length := List.length.

(** * Products of linear factors *)
Fixpoint pr (l : list R) (x : R) : R := match l with [] => 1 | t :: l' => (x - t) * pr l' x end.

Lemma pr_leads l : exists r, polylt (length l) r /\ forall x, pr l x = x ^ length l + r x.
Proof.
  induction l as [|t l (r & Hr & E)].
  - exists (fun _ => 0). split; [apply polylt_zero|]. intros; cbn; lra.
  - exists (fun x => r x * x ^ 1 - t * pr l x). split.
    + cbn [length]. apply polylt_minus.
      * replace (S (length l)) with (length l + 1)%nat by lia. apply polylt_mulpow; auto.
      * apply polylt_scal. apply (polylt_ext _ (fun x => x ^ length l + r x)); [intros; symmetry; apply E|].
        apply polylt_plus; [apply polylt_pow|apply (polylt_mono (length l)); auto].
    + intros x. cbn [pr length]. cbn [pow]. rewrite E. ring.
Qed.

Lemma pr_right l x : Forall (fun t => t < x) l -> 0 < pr l x.
Proof. induction 1; cbn; [lra|]. apply Rmult_lt_0_compat; lra. Qed.
Lemma pr_left l x : Forall (fun t => x < t) l -> 0 < (-1) ^ length l * pr l x.
Proof.
  induction 1 as [|t l Ht _ IH]; cbn [pr length pow]; [lra|].
  replace (-1 * (-1) ^ length l * ((x - t) * pr l x)) with ((t - x) * ((-1) ^ length l * pr l x)) by ring.
  apply Rmult_lt_0_compat; lra.
Qed.

Lemma factored n l : NoDup l -> length l = n -> Forall (fun t => t < 1) l -> (forall t, In t l -> legP n t = 0) ->
  exists c, 0 < c /\ forall x, legP n x = c * pr l x.
Proof.
  intros Hnd Hlen H1 Hz. destruct (legP_leads n) as (a & r & Ha & Hr & E). destruct (pr_leads l) as (s & Hs & Es).
  assert (Eq : forall x, legP n x = a * pr l x).
  { intros x. enough (H : (fun x => legP n x - a * pr l x) x = 0) by (cbv beta in H; lra).
    apply (poly_zeros n (fun x => legP n x - a * pr l x) l); auto; [|lia|].
    - apply (polylt_ext _ (fun x => r x - a * s x)).
      + intros y. cbv beta. rewrite E, (Es y), Hlen. ring.
      + rewrite Hlen in Hs. apply polylt_minus; auto. apply polylt_scal; auto.
    - intros t Ht. rewrite Hz by auto.
      assert (pr l t = 0); [|rewrite H; ring]. clear - Ht. induction l as [|u l IH]; [easy|]. cbn. destruct Ht as [->|Ht]; [ring|rewrite IH by auto; ring]. }
  exists a. split; [|exact Eq]. specialize (Eq 1). rewrite legP_at_1 in Eq. pose proof (pr_right l 1 H1).
  apply Rnot_le_lt. intros Hle. nra.
Qed.

(** * Signs and zeros *)
Fixpoint alternates (s : R) (f : R -> R) (p : list R) : Prop :=
  match p with [] => True | a :: p' => 0 < s * f a /\ alternates (- s) f p' end.
Fixpoint between (p l : list R) : Prop :=
  match p with
  | a :: p' =>
      match p', l with
      | [], [] => True
      | b :: _, t :: l' => a < t < b /\ between p' l'
      | _, _ => False
      end
  | [] => False
  end.

Lemma alternates_ext s f g p : (forall t, In t p -> f t = g t) -> alternates s f p -> alternates s g p.
Proof.
  revert s. induction p as [|a p IH]; intros s E H; [exact I|]. destruct H as [Ha H]. split; [rewrite <- E by (left; auto); exact Ha|].
  apply IH; auto. intros; apply E; right; auto.
Qed.
Lemma alternates_scal s c f p : 0 < c -> alternates s f p -> alternates s (fun x => c * f x) p.
Proof.
  intros Hc. revert s. induction p as [|a p IH]; intros s H; [exact I|]. destruct H as [Ha H]. split; [|apply IH; auto].
  replace (s * (c * f a)) with (c * (s * f a)) by ring. apply Rmult_lt_0_compat; auto.
Qed.
Lemma alternates_opp s f p : alternates s f p -> alternates (- s) (fun x => - f x) p.
Proof.
  revert s. induction p as [|a p IH]; intros s H; [exact I|]. destruct H as [Ha H]. split; [|apply IH; auto].
  replace (- s * - f a) with (s * f a) by ring. auto.
Qed.
Lemma alternates_snoc s f p z : alternates s f p -> 0 < s * (-1) ^ length p * f z -> alternates s f (p ++ [z]).
Proof.
  revert s. induction p as [|a p IH]; intros s H Hz.
  - cbn in *. split; [lra|exact I].
  - destruct H as [Ha H]. split; auto. apply IH; auto. cbn [length pow] in Hz.
    replace (- s * (-1) ^ length p * f z) with (s * (-1 * (-1) ^ length p) * f z) by ring. auto.
Qed.

Lemma one_root f a b : (forall x, continuity_pt f x) -> a < b -> f a * f b < 0 -> exists t, a < t < b /\ f t = 0.
Proof.
  intros Hc Hab Hs.
  assert (Hn : forall g, (forall x, continuity_pt g x) -> g a < 0 -> 0 < g b -> exists t, a < t < b /\ g t = 0).
  { intros g Hg H1 H2. destruct (Ranalysis5.IVT_interv g a b) as (t & Ht & E); auto.
    exists t. split; auto. split; [destruct (proj1 Ht)|destruct (proj2 Ht)]; subst; lra. }
  destruct (Rlt_dec (f a) 0) as [Ha|Ha].
  - apply Hn; auto. nra.
  - assert (f a <> 0) by (intros E; rewrite E in Hs; lra).
    destruct (Hn (fun x => - f x)) as (t & Ht & E); [intros; apply continuity_pt_opp; auto|lra|nra|].
    exists t. split; auto. lra.
Qed.
Lemma alternating_roots f : (forall x, continuity_pt f x) -> forall p s, StronglySorted Rlt p -> p <> [] -> alternates s f p ->
  exists l, between p l /\ length l = (length p - 1)%nat /\ forall t, In t l -> f t = 0.
Proof.
  intros Hc. induction p as [|a p IH]; intros s Hs Hne Ha; [easy|]. destruct p as [|b p].
  - exists []. cbn. easy.
  - apply StronglySorted_inv in Hs as [Hs Hf]. destruct Ha as [Ha Hb]. inversion Hf; subst.
    destruct (IH (- s) Hs ltac:(discriminate) Hb) as (l & Bl & Ll & Zl).
    destruct (one_root f a b Hc ltac:(auto)) as (t & Ht & Et).
    { destruct Hb as [Hb _]. destruct (Rle_dec 0 (f a * f b)) as [Hle|]; [|lra]. exfalso.
      pose proof (Rmult_lt_0_compat _ _ Ha Hb) as H. replace (s * f a * (- s * f b)) with (- (s * s) * (f a * f b)) in H by ring. nra. }
    exists (t :: l). split; [split; auto|]. split; [cbn in *; lia|]. intros u [<-|Hu]; auto.
Qed.

Lemma between_bounds : forall l' l a z, between (a :: l' ++ [z]) l ->
  a < z /\ Forall (fun t => a < t < z) l /\ Forall (fun t => a < t < z) l' /\ StronglySorted Rlt l /\ StronglySorted Rlt l' /\
  length l = S (length l').
Proof.
  induction l' as [|b l' IH]; intros l a z H.
  - destruct l as [|t [|]]; cbn in H; try easy. split; [lra|]. repeat (split; [repeat constructor; lra|]). reflexivity.
  - destruct l as [|t l]; [easy|]. destruct H as [Ht H]. apply IH in H as (A & B & C & D & E & F). 
    assert (W : forall k, Forall (fun t => b < t < z) k -> Forall (fun t => a < t < z) k).
    { intros k Hk. eapply Forall_impl; [|exact Hk]. cbv beta. intros; lra. }
    split; [lra|]. split; [constructor; [lra|auto]|]. split; [constructor; [lra|auto]|].
    split; [|split; [|cbn; lia]].
    + constructor; auto. eapply Forall_impl; [|exact B]. cbv beta. intros; lra.
    + constructor; auto. eapply Forall_impl; [|exact C]. cbv beta. intros; lra.
Qed.

Lemma between_alternates : forall l' l0 l a z, between (a :: l' ++ [z]) l -> Forall (fun t => t <= a) l0 ->
  alternates ((-1) ^ length l') (fun x => pr l0 x * pr l' x) l.
Proof.
  induction l' as [|b l' IH]; intros l0 l a z H H0.
  - destruct l as [|t [|]]; cbn in H; try easy. split; [|exact I]. cbn.
    assert (0 < pr l0 t); [|lra]. apply pr_right. eapply Forall_impl; [|exact H0]. cbv beta. intros; lra.
  - destruct l as [|t l]; [easy|]. pose proof H as [Ht H']. split.
    + assert (P1 : 0 < pr l0 t) by (apply pr_right; eapply Forall_impl; [|exact H0]; cbv beta; intros; lra).
      assert (P2 : 0 < (-1) ^ length (b :: l') * pr (b :: l') t).
      { apply pr_left. constructor; [lra|]. apply between_bounds in H' as (_ & _ & C & _). eapply Forall_impl; [|exact C]. cbv beta. intros; lra. }
      replace ((-1) ^ length (b :: l') * (pr l0 t * pr (b :: l') t)) with (pr l0 t * ((-1) ^ length (b :: l') * pr (b :: l') t)) by ring.
      apply Rmult_lt_0_compat; auto.
    + replace (- (-1) ^ length (b :: l')) with ((-1) ^ length l') by (cbn [length pow]; ring).
      apply (alternates_ext _ (fun x => pr (b :: l0) x * pr l' x)); [intros; cbn [pr]; ring|].
      apply (IH (b :: l0) l b z H'). constructor; [lra|]. eapply Forall_impl; [|exact H0]. cbv beta. intros; lra.
Qed.

Lemma sorted_nodup l : StronglySorted Rlt l -> NoDup l.
Proof.
  induction 1 as [|a l _ IH Hf]; constructor; auto. intros H. rewrite Forall_forall in Hf. specialize (Hf _ H). lra.
Qed.
Lemma between_sorted : forall l' l a z, between (a :: l' ++ [z]) l -> StronglySorted Rlt (a :: l' ++ [z]).
Proof.
  induction l' as [|b l' IH]; intros l a z H.
  - destruct l as [|t [|]]; cbn in H; try easy. repeat constructor; lra.
  - destruct l as [|t l]; [easy|]. destruct H as [Ht H]. apply IH in H. cbn [app]. constructor; [exact H|].
    constructor; [lra|]. apply StronglySorted_inv in H as [_ H]. eapply Forall_impl; [|exact H]. cbv beta. intros; lra.
Qed.

(** * The zeros *)
Lemma interlaced n : exists l' l, length l' = n /\ between (-1 :: l' ++ [1]) l /\
  (forall t, In t l' -> legP n t = 0) /\ (forall t, In t l -> legP (S n) t = 0).
Proof.
  induction n as [|n (l' & l & Hlen & Hb & Z' & Z)].
  - exists [], [0]. split; [reflexivity|]. split; [cbn; repeat split; lra|]. split; [easy|]. intros t [<-|[]]. apply legP_1.
  - destruct (between_bounds _ _ _ _ Hb) as (_ & Bl & Bl' & Sl & Sl' & Ll).
    assert (U : forall k, Forall (fun t => -1 < t < 1) k -> Forall (fun t => t < 1) k) by (intros k Hk; eapply Forall_impl; [|exact Hk]; cbv beta; intros; lra).
    destruct (factored n l' (sorted_nodup _ Sl') Hlen (U _ Bl') Z') as (c & Hc & Ec).
    assert (A : alternates ((-1) ^ n) (legP n) l).
    { pose proof (between_alternates l' [] l (-1) 1 Hb ltac:(constructor)) as A. rewrite Hlen in A.
      apply (alternates_scal _ c) in A; auto. eapply alternates_ext; [|exact A]. intros t _. cbn [pr]. rewrite Ec. ring. }
    pose proof (INR_nonneg n) as Pn.
    assert (A2 : alternates (- (-1) ^ n) (legP (S (S n))) l).
    { apply alternates_opp in A. apply (alternates_scal _ ((INR n + 1) / (INR n + 2))) in A; [|apply Rdiv_lt_0_compat; lra].
      eapply alternates_ext; [|exact A]. intros t Ht. cbv beta. rewrite legP_SS, (Z t Ht). field. lra. }
    assert (S1 : (-1) ^ n * (-1) ^ n = 1) by (rewrite <- Rpow_mult_distr; replace (-1 * -1) with 1 by ring; apply pow1).
    destruct (alternating_roots (legP (S (S n)))) with (p := -1 :: l ++ [1]) (s := (-1) ^ n) as (l2 & B2 & L2 & Z2).
    + intros x. apply continuity_pt_filterlim, continuous_legP.
    + assert (Hs : StronglySorted Rlt (l ++ [1])).
      { clear - Sl Bl. induction Sl as [|a l Sl IH Hf]; [repeat constructor|]. inversion Bl; subst. cbn [app]. constructor; auto.
        apply Forall_app. split; auto. constructor; [lra|constructor]. }
      constructor; auto. apply Forall_app. split; [eapply Forall_impl; [|exact Bl]; cbv beta; intros; lra|constructor; [lra|constructor]].
    + discriminate.
    + split.
      * rewrite legP_at_m1. cbn [pow]. replace ((-1) ^ n * (-1 * (-1 * (-1) ^ n))) with ((-1) ^ n * (-1) ^ n) by ring. lra.
      * apply alternates_snoc; auto. rewrite legP_at_1, Ll, Hlen. cbn [pow].
        replace (- (-1) ^ n * (-1 * (-1) ^ n) * 1) with ((-1) ^ n * (-1) ^ n) by ring. lra.
    + exists l, l2. split; [lia|]. auto.
Qed.

Lemma legendre_zeros n : exists l, length l = n /\ StronglySorted Rlt l /\ Forall (fun t => -1 < t < 1) l /\
  forall t, legP n t = 0 <-> In t l.
Proof.
  destruct (interlaced n) as (l & l2 & Hlen & Hb & Z & _). destruct (between_bounds _ _ _ _ Hb) as (_ & _ & Bl & _ & Sl & _).
  exists l. repeat (split; [assumption|]). intros t. split; [|apply Z].
  assert (U : Forall (fun t => t < 1) l) by (eapply Forall_impl; [|exact Bl]; cbv beta; intros; lra).
  destruct (factored n l (sorted_nodup _ Sl) Hlen U Z) as (c & Hc & Ec). rewrite Ec. intros H.
  apply Rmult_integral in H as [H|H]; [lra|]. clear - H. induction l as [|a l IH]; cbn in H; [lra|].
  apply Rmult_integral in H as [H|H]; [left; lra|right; auto].
Qed.

Lemma gauss_exists n : (0 < n)%nat -> exists q, gauss_ok n q /\ distances_ok q /\
  (forall t, legP n t = 0 <-> In t (rx q)) /\
  rw q = gauss_weights (polyvalderiv_loop (n - 1) legendre_alpha legendre_beta) 2 (rx q).
Proof.
  intros Hn. destruct (legendre_zeros n) as (l & Hlen & Hs & Hb & Hz).
  assert (Hz' : forall t, In t l -> family legendre_alpha legendre_beta n t = 0).
  { intros t Ht. apply Hz in Ht. destruct (legendre_family_P _ (family_ok legendre_alpha legendre_beta) n) as (k & Hk & E).
    rewrite E in Ht. apply Rmult_integral in Ht as [Ht|Ht]; [lra|auto]. }
  destruct (legendre_rule_exact n l Hn (sorted_nodup _ Hs) Hlen Hz') as [Ex Pw].
  set (w := gauss_weights _ 2 l) in *.
  assert (Lw : length w = n) by (unfold w, gauss_weights; rewrite !map_length; auto).
  exists (rule_init l w None None (-1) 1). split; [|split; [split; reflexivity|split; [exact Hz|reflexivity]]].
  split; [exact Hn|]. cbn. split; [auto|]. split; [auto|]. split; [split; auto|]. split; [auto|]. split; [auto|]. split; [auto|]. exact Ex.
Qed.

(** Legendre rules for finitely many orders as a function. *)
Lemma rules_exist n1 n2 : (0 < n1)%nat -> (0 < n2)%nat ->
  exists legendre : dtype -> nat -> res rule,
    (forall t n q, legendre t n = Ok q -> gauss_ok n q /\ distances_ok q) /\
    forall t n, n = n1 \/ n = n2 -> exists q, legendre t n = Ok q.
Proof.
  intros H1 H2. destruct (gauss_exists n1 H1) as (q1 & G1 & D1 & _). destruct (gauss_exists n2 H2) as (q2 & G2 & D2 & _).
  exists (fun _ n => if (n =? n1)%nat then Ok q1 else if (n =? n2)%nat then Ok q2 else Raise ValueError). split.
  - intros t n q. destruct (Nat.eqb_spec n n1) as [->|]; [intros [= <-]; auto|]. destruct (Nat.eqb_spec n n2) as [->|]; [intros [= <-]; auto|discriminate].
  - intros t n H. destruct (Nat.eqb_spec n n1); [eauto|]. destruct (Nat.eqb_spec n n2); [eauto|]. lia.
Qed.

(** * Uniqueness *)
Lemma legP_ortho n g : polylt n g -> is_RInt (fun x => legP n x * g x) (-1) 1 0.
Proof.
  intros Hg. destruct (graded_span legP n legP_graded g Hg) as [c Hc].
  apply (is_RInt_fext (fun x => sumn n (fun m => c m * (legP n x * legP m x)))).
  { intros x. rewrite Hc, <- sumn_scal. apply sumn_ext. intros; ring. }
  eapply is_RInt_eq.
  - apply (RInt_sumn n (fun m x => c m * (legP n x * legP m x))).
    intros m _. apply ex_RInt_cont. intros x. apply continuous_scal2, continuous_mult2; apply continuous_legP.
  - apply sumn_zero. intros m Hm. apply RInt_val.
    eapply is_RInt_eq; [apply is_RInt_scalR, is_RInt_val, ex_legI|].
    change (RInt (fun x => legP n x * legP m x) (-1) 1) with (legI n m).
    rewrite legI_orth, (proj2 (Nat.eqb_neq n m)) by lia. ring.
Qed.

Lemma quad_pick x w f j : NoDup x -> length w = length x -> (j < length x)%nat ->
  (forall s, In s x -> s <> nth j x 0 -> f s = 0) -> quad x w f = nth j w 0 * f (nth j x 0).
Proof.
  intros Hn Hl Hj H0. rewrite nth_quad by auto.
  rewrite (sumn_ext _ _ (fun i => if Nat.eqb i j then nth j w 0 * f (nth j x 0) else 0)).
  - clear H0. revert Hj. generalize (length x) as n. induction n as [|n IH]; intros Hj; [lia|]. rewrite sumn_S.
    destruct (Nat.eqb_spec n j) as [->|Hne].
    + rewrite sumn_zero; [ring|]. intros i Hi. destruct (Nat.eqb_spec i j); [lia|reflexivity].
    + rewrite IH by lia. ring.
  - intros i Hi. destruct (Nat.eqb_spec i j) as [->|Hne]; [reflexivity|]. rewrite H0; [ring|apply nth_In; auto|].
    intros E. apply Hne. apply (NoDup_nth x 0); auto.
Qed.

Lemma gauss_nodes n q : gauss_ok n q -> forall t, In t (rx q) <-> legP n t = 0.
Proof.
  intros (Hn & Lx & Lw & (Ss & Bx) & Pw & _ & _ & Ex).
  pose proof (sorted_nodup _ Ss) as Nd.
  assert (Z : forall t, In t (rx q) -> legP n t = 0).
  { intros t Ht. destruct (lagrange_exists (rx q) t Nd Ht) as (g & Pg & G1 & G0). rewrite Lx in Pg.
    apply (In_nth _ _ 0) in Ht as (j & Hj & <-).
    assert (Hp : polynomial (2 * n - 1) (fun x => legP n x * g x)).
    { destruct n as [|m]; [lia|]. apply (polylt_mono (S (S m) + m)); [lia|]. apply polylt_mul; [apply legP_polylt|auto]. }
    pose proof (is_RInt_unique _ _ _ _ (Ex _ Hp)) as E1. pose proof (is_RInt_unique _ _ _ _ (legP_ortho n g Pg)) as E2.
    rewrite E2 in E1. rewrite (quad_pick (rx q) (rw q) _ j Nd ltac:(lia) Hj) in E1.
    - rewrite G1 in E1. rewrite Forall_forall in Pw. pose proof (Pw (nth j (rw q) 0) ltac:(apply nth_In; lia)).
      rewrite Rmult_1_r in E1. symmetry in E1. apply Rmult_integral in E1 as [E1|E1]; [lra|exact E1].
    - intros s Hs Hne. rewrite (G0 s Hs Hne). ring. }
  intros t. split; [apply Z|]. intros H. destruct (in_dec Req_EM_T t (rx q)) as [Hi|Hi]; auto. exfalso.
  assert (L : (S n <= length (t :: rx q))%nat) by (cbn; lia).
  pose proof (poly_zeros (S n) (legP n) (t :: rx q) (legP_polylt n) ltac:(constructor; auto) L ltac:(intros s [<-|Hs]; auto) 1) as Hc.
  rewrite legP_at_1 in Hc. lra.
Qed.

Lemma sorted_same (l m : list R) : StronglySorted Rlt l -> StronglySorted Rlt m -> (forall t, In t l <-> In t m) -> l = m.
Proof.
  revert m. induction l as [|a l IH]; intros m Sl Sm H.
  - destruct m as [|b m]; auto. exfalso. apply (H b). left; auto.
  - destruct m as [|b m]; [exfalso; apply (H a); left; auto|].
    apply StronglySorted_inv in Sl as [Sl Fl]. apply StronglySorted_inv in Sm as [Sm Fm]. rewrite Forall_forall in Fl, Fm.
    assert (a = b).
    { destruct (proj1 (H a) (or_introl eq_refl)) as [->|Ha]; auto. destruct (proj2 (H b) (or_introl eq_refl)) as [->|Hb]; auto.
      specialize (Fl _ Hb). specialize (Fm _ Ha). lra. }
    subst b. f_equal. apply IH; auto. intros t. split; intros Ht.
    + destruct (proj1 (H t) (or_intror Ht)) as [<-|]; auto. specialize (Fl _ Ht). lra.
    + destruct (proj2 (H t) (or_intror Ht)) as [<-|]; auto. specialize (Fm _ Ht). lra.
Qed.

Lemma weights_unique n x w w' : (0 < n)%nat -> NoDup x -> length x = n -> length w = n -> length w' = n ->
  (forall f, polylt n f -> quad x w f = quad x w' f) -> w = w'.
Proof.
  intros Hn Nd Lx Lw Lw' H. apply (nth_ext _ _ 0 0); [lia|]. intros j Hj.
  destruct (lagrange_exists x (nth j x 0) Nd ltac:(apply nth_In; lia)) as (g & Pg & G1 & G0). rewrite Lx in Pg.
  pose proof (H g Pg) as E. rewrite !(quad_pick _ _ _ j Nd) in E by (auto; lia). rewrite G1 in E. lra.
Qed.

Lemma gauss_unique n q q' : gauss_ok n q -> gauss_ok n q' -> rx q = rx q' /\ rw q = rw q'.
Proof.
  intros G G'. pose proof (gauss_nodes _ _ G) as N. pose proof (gauss_nodes _ _ G') as N'.
  destruct G as (Hn & Lx & Lw & (Ss & Bx) & Pw & _ & _ & Ex). destruct G' as (_ & Lx' & Lw' & (Ss' & Bx') & Pw' & _ & _ & Ex').
  assert (E : rx q = rx q') by (apply sorted_same; auto; intros t; rewrite N, N'; tauto).
  split; [exact E|]. rewrite <- E in Ex'. apply (weights_unique n (rx q)); auto; [apply sorted_nodup; auto|].
  intros f Hf. assert (Hp : polynomial (2 * n - 1) f) by (apply (polylt_mono n); [lia|auto]).
  pose proof (is_RInt_unique _ _ _ _ (Ex f Hp)) as E1. pose proof (is_RInt_unique _ _ _ _ (Ex' f Hp)) as E2. congruence.
Qed.

(** The rule is symmetric. *)
Lemma quad_reverse x w f : length x = length w -> quad (rev (map Ropp x)) (rev w) f = quad x w (fun t => f (- t)).
Proof.
  intros Hl. rewrite !nth_quad by (rewrite ?rev_length, ?map_length; auto). rewrite rev_length, map_length.
  rewrite sumn_rev. apply sumn_ext. intros i Hi.
  rewrite !rev_nth by (rewrite ?map_length; lia). rewrite map_length, <- Hl.
  replace (length x - S (length x - 1 - i))%nat with i by lia.
  rewrite (nth_indep (map Ropp x) 0 (- 0)) by (rewrite map_length; lia). rewrite map_nth. reflexivity.
Qed.

Lemma sorted_reverse x : StronglySorted Rlt x -> StronglySorted Rlt (rev (map Ropp x)).
Proof.
  induction 1 as [|a x Sx IH Fx]; cbn [map rev]; [constructor|].
  assert (Ha : Forall (fun t => t < - a) (rev (map Ropp x))).
  { apply Forall_forall. intros t Ht. apply in_rev, in_map_iff in Ht as (s & <- & Hs). rewrite Forall_forall in Fx. specialize (Fx _ Hs). lra. }
  clear - IH Ha. induction IH as [|b l Sl IHl Fl]; cbn [app]; [repeat constructor|]. inversion Ha; subst.
  constructor; auto. apply Forall_app. split; auto.
Qed.

Lemma gauss_symmetric n q : gauss_ok n q -> rx q = rev (map Ropp (rx q)) /\ rw q = rev (rw q).
Proof.
  intros G. pose proof G as (Hn & Lx & Lw & (Ss & Bx) & Pw & Ha & Hb & Ex).
  apply (gauss_unique n q (Rule (rev (map Ropp (rx q))) (rev (rw q)) [] [] (-1) 1)); auto.
  split; [exact Hn|]. cbn [rx rw ra rb]. rewrite !rev_length, map_length. split; [exact Lx|]. split; [exact Lw|].
  split.
  { split; cbn [rx ra rb].
    - apply sorted_reverse; auto.
    - apply Forall_forall. intros t Ht. apply in_rev, in_map_iff in Ht as (s & <- & Hs). rewrite Forall_forall in Bx.
      specialize (Bx _ Hs). lra. }
  split; [apply Forall_forall; intros t Ht; apply in_rev in Ht; rewrite Forall_forall in Pw; auto|]. split; [reflexivity|]. split; [reflexivity|].
  intros f Hf. rewrite quad_reverse by lia.
  assert (Hp : polynomial (2 * n - 1) (fun t => f (- t))).
  { apply (polylt_ext _ (fun t => f (-1 * t + 0))); [intros; f_equal; ring|]. apply polylt_comp_lin; auto. }
  pose proof (Ex _ Hp) as HI.
  pose proof (is_RInt_comp_opp (V := R_NormedModule) (fun t => f (- t)) 1 (-1) (quad (rx q) (rw q) (fun t => f (- t)))) as HC.
  replace (- -1) with 1 in HC by ring. specialize (HC HI). apply is_RInt_swap in HC. apply is_RInt_opp in HC.
  eapply is_RInt_eq; [|apply Ropp_involutive]. refine (is_RInt_fext _ _ _ _ _ _ HC).
  intros x. unfold opp; cbn. rewrite !Ropp_involutive. reflexivity.
Qed.

(** Some run of the code reaches it: start and corrections that end at the zeros. *)
Lemma run_exists n : (0 < n)%nat -> exists eig corr sub r,
  legendre_rule n eig corr sub (polyvalderiv_loop (n - 1) legendre_alpha legendre_beta) = Ok r /\
  NoDup (rx r) /\ length (rx r) = n /\
  forall Q, recurrence_family legendre_alpha legendre_beta Q -> forall t, In t (rx r) -> Q n t = 0.
Proof.
  intros Hn. destruct (legendre_zeros n) as (l & Hlen & Hs & Hb & Hz).
  set (eig := map (fun t => t + 3 / 4) l). set (corr := fun _ : list R => map (fun _ : R => 3 / 4) l).
  exists eig, corr, Rminus.
  assert (E : map2 Rminus eig (corr eig) = l).
  { unfold eig, corr. clear. induction l as [|a l IH]; [reflexivity|]. cbn [map map2]. rewrite IH. f_equal. ring. }
  assert (Hnl : newton_loop 5 corr Rminus 1 eig = Ok l).
  { assert (L : largest (map (fun _ : R => 3 / 4) l) (3 / 4)).
    { split.
      - destruct l as [|a l]; [cbn in Hlen; lia|]. left. rewrite Rabs_right; lra.
      - apply Forall_forall. intros x Hx. apply in_map_iff in Hx as (_ & <- & _). rewrite Rabs_right; lra. }
    destruct (newton_loop_spec corr Rminus 5 1 eig (fun _ => 3 / 4)) as [H _]; [intros; exact L|].
    rewrite (H 0%nat); [|lia|intros; lia|lra]. cbn [newton_points]. rewrite E. reflexivity. }
  eexists. split.
  - unfold legendre_rule. rewrite rule_from_recurrence_newton; [|lia|lra|].
    + rewrite Hnl. cbn [bind]. destruct n; [lia|reflexivity].
    + intros k Hk. destruct k as [|k]; [lia|]. unfold legendre_beta.
      assert (P : 1 <= INR (S k)) by (rewrite S_INR; pose proof (pos_INR k); lra).
      generalize dependent (INR (S k)). intros y Hy. apply Rlt_le, Rdiv_lt_0_compat; nra.
  - cbn [rule_init rx]. split; [apply sorted_nodup; auto|]. split; [auto|]. intros Q HQ t Ht. apply Hz in Ht.
    destruct (legendre_family_P _ HQ n) as (k & Hk & Ek). rewrite Ek in Ht. apply Rmult_integral in Ht as [Ht|Ht]; [lra|auto].
Qed.

Lemma gauss_statement n : (1 <= n)%nat -> exists r,
  length (rx r) = n /\ placed r /\ ra r = -1 /\ rb r = 1 /\ length (rw r) = n /\ Forall (fun w => 0 < w) (rw r) /\
  exact_to (2 * n - 1) (rx r) (rw r) (-1) 1 /\
  (forall t, legP n t = 0 <-> In t (rx r)) /\
  rw r = gauss_weights (polyvalderiv_loop (n - 1) legendre_alpha legendre_beta) 2 (rx r) /\
  forall r', length (rx r') = n -> length (rw r') = n -> placed r' -> ra r' = -1 -> rb r' = 1 ->
    Forall (fun w => 0 < w) (rw r') -> exact_to (2 * n - 1) (rx r') (rw r') (-1) 1 ->
    rx r' = rx r /\ rw r' = rw r.
Proof.
  intros Hn. destruct (gauss_exists n Hn) as (q & G & D & Z & W). exists q.
  pose proof G as (_ & Lx & Lw & Pl & Pw & Ea & Eb & Ex).
  repeat (split; [assumption|]). intros r' L1 L2 P1 A1 B1 W1 X1. apply (gauss_unique n); [|exact G].
  repeat (split; [assumption|]). exact X1.
Qed.
