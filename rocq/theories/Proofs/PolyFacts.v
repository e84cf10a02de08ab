(** Polynomial functions with a bounded number of coefficients. *)
From Coquelicot Require Import Coquelicot.
From Coq Require Import List Reals Arith Bool Lia Lra.
From Verif.Model Require Import Base Num.
From Verif.Spec Require Import SGauss.
From Verif.Proofs Require Import SumFacts IntFacts LegFacts.
Import ListNotations.
Open Scope R_scope.

Lemma polylt_ext n f g : (forall x, f x = g x) -> polylt n f -> polylt n g.
Proof. intros E [c H]. exists c. intros x. rewrite <- E. apply H. Qed.

Lemma polylt_mono n m f : (n <= m)%nat -> polylt n f -> polylt m f.
Proof.
  intros Hle [c H]. exists (fun k => if (k <? n)%nat then c k else 0). intros x.
  rewrite (sumn_le_extend n m); auto.
  - rewrite H. apply sumn_ext. intros i Hi. apply Nat.ltb_lt in Hi. rewrite Hi. auto.
  - intros i Hi. rewrite (proj2 (Nat.ltb_ge i n)) by lia. ring.
Qed.

Lemma polylt_plus n f g : polylt n f -> polylt n g -> polylt n (fun x => f x + g x).
Proof.
  intros [c Hc] [d Hd]. exists (fun k => c k + d k). intros x.
  rewrite Hc, Hd, <- sumn_plus. apply sumn_ext. intros; ring.
Qed.

Lemma polylt_scal n a f : polylt n f -> polylt n (fun x => a * f x).
Proof.
  intros [c Hc]. exists (fun k => a * c k). intros x.
  rewrite Hc, <- sumn_scal. apply sumn_ext. intros; ring.
Qed.

Lemma polylt_minus n f g : polylt n f -> polylt n g -> polylt n (fun x => f x - g x).
Proof.
  intros Hf Hg. apply (polylt_ext n (fun x => f x + (-1) * g x)); [intros; ring|].
  apply polylt_plus; auto. apply polylt_scal; auto.
Qed.

Lemma polylt_zero n : polylt n (fun _ => 0).
Proof. exists (fun _ => 0). intros x. rewrite sumn_zero; auto. intros; ring. Qed.

Lemma polylt_const a : polylt 1 (fun _ => a).
Proof. exists (fun _ => a). intros x. simpl. ring. Qed.

Lemma polylt_pow k : polylt (S k) (fun x => x ^ k).
Proof.
  exists (fun i => if Nat.eqb i k then 1 else 0). intros x.
  rewrite (sumn_single (S k) _ k); [rewrite Nat.eqb_refl; ring|lia|].
  intros i _ Hi. apply Nat.eqb_neq in Hi. rewrite Hi. ring.
Qed.

Lemma polylt_mulpow n k f : polylt n f -> polylt (n + k) (fun x => f x * x ^ k).
Proof.
  intros [c Hc]. exists (fun i => if (i <? k)%nat then 0 else c (i - k)%nat). intros x.
  rewrite Nat.add_comm, sumn_app, sumn_zero.
  - rewrite Hc, <- sumn_scal_r, Rplus_0_l. apply sumn_ext. intros i Hi.
    rewrite (proj2 (Nat.ltb_ge (k + i) k)) by lia.
    replace (k + i - k)%nat with i by lia. rewrite pow_add. ring.
  - intros i Hi. apply Nat.ltb_lt in Hi. rewrite Hi. ring.
Qed.

Lemma polylt_sumn n m (f : nat -> R -> R) :
  (forall i, (i < m)%nat -> polylt n (f i)) -> polylt n (fun x => sumn m (fun i => f i x)).
Proof.
  induction m; intros H; simpl; [apply polylt_zero|].
  apply polylt_plus; [apply IHm; intros; apply H; lia|apply H; lia].
Qed.

Lemma polylt_mul n m f g : polylt n f -> polylt (S m) g -> polylt (n + m) (fun x => f x * g x).
Proof.
  intros Hf [d Hd].
  apply (polylt_ext _ (fun x => sumn (S m) (fun k => d k * (f x * x ^ k)))).
  - intros x. rewrite Hd, <- sumn_scal. apply sumn_ext. intros; ring.
  - apply polylt_sumn. intros i Hi. apply polylt_scal.
    apply (polylt_mono (n + i)); [lia|]. apply polylt_mulpow; auto.
Qed.

Lemma polylt_lin u v : polylt 2 (fun x => u * x + v).
Proof. exists (fun k => match k with O => v | _ => u end). intros x. simpl. ring. Qed.

Lemma polylt_powlin u v k : polylt (S k) (fun x => (u * x + v) ^ k).
Proof.
  induction k; simpl.
  - apply polylt_const.
  - replace (S (S k)) with (S k + 1)%nat by lia.
    apply (polylt_ext _ (fun x => (u * x + v) ^ k * (u * x + v))); [intros; ring|].
    apply (polylt_mul (S k) 1); auto. apply polylt_lin.
Qed.

Lemma polylt_comp_lin n f u v : polylt n f -> polylt n (fun x => f (u * x + v)).
Proof.
  intros [c Hc]. apply (polylt_ext _ (fun x => sumn n (fun k => c k * (u * x + v) ^ k))).
  - intros x. rewrite Hc. auto.
  - apply polylt_sumn. intros i Hi. apply polylt_scal.
    apply (polylt_mono (S i)); [lia|]. apply polylt_powlin.
Qed.

Lemma continuous_pow k (x : R) : continuous (fun t : R => t ^ k) x.
Proof.
  induction k; simpl; [apply continuous_const|].
  apply (continuous_mult2 (fun t => t) (fun t => t ^ k)); auto. apply continuous_id.
Qed.
Lemma polylt_continuous n f x : polylt n f -> continuous f x.
Proof.
  intros [c Hc]. apply (continuous_ext (fun x => sumn n (fun k => c k * x ^ k))).
  - intros y; symmetry; apply Hc.
  - apply continuous_sumn. intros i _. apply continuous_scal2, continuous_pow.
Qed.
Lemma polylt_ex_RInt n f a b : polylt n f -> ex_RInt f a b.
Proof. intros H. apply ex_RInt_cont. intros; eapply polylt_continuous; eauto. Qed.

(** * Families with one polynomial per degree *)
Definition leads (n : nat) (q : R -> R) : Prop :=
  exists a r, a <> 0 /\ polylt n r /\ forall x, q x = a * x ^ n + r x.
Definition graded (Q : nat -> R -> R) : Prop := forall m, leads m (Q m).

Lemma leads_polylt n q : leads n q -> polylt (S n) q.
Proof.
  intros (a & r & _ & Hr & E). apply (polylt_ext _ (fun x => a * x ^ n + r x)); [intros; rewrite E; auto|].
  apply polylt_plus; [apply polylt_scal, polylt_pow|]. apply (polylt_mono n); auto.
Qed.

Lemma graded_span Q n : graded Q -> forall f, polylt n f ->
  exists c, forall x, f x = sumn n (fun m => c m * Q m x).
Proof.
  intros HQ. induction n; intros f Hf.
  - exists (fun _ => 0). destruct Hf as [c Hc]. intros x. rewrite Hc. auto.
  - destruct Hf as [c Hc]. destruct (HQ n) as (a & r & Ha & Hr & E).
    destruct (IHn (fun x => sumn n (fun k => c k * x ^ k) - c n / a * r x)) as [d Hd].
    { apply polylt_minus; [exists c; auto|]. apply polylt_scal; auto. }
    exists (fun k => if (k <? n)%nat then d k else c n / a). intros x.
    rewrite Hc, !sumn_S, Nat.ltb_irrefl.
    rewrite (sumn_ext n (fun m => (if (m <? n)%nat then d m else c n / a) * Q m x) (fun m => d m * Q m x)).
    + rewrite <- Hd. cbv beta. rewrite E. field. auto.
    + intros i Hi. apply Nat.ltb_lt in Hi. rewrite Hi. auto.
Qed.

Lemma poly_div n q : leads n q -> forall k f, polylt (n + k) f ->
  exists g s, polylt k g /\ polylt n s /\ forall x, f x = q x * g x + s x.
Proof.
  intros (a & r & Ha & Hr & E). induction k; intros f Hf.
  - rewrite Nat.add_0_r in Hf. exists (fun _ => 0), f. repeat split; auto; [apply polylt_zero|].
    intros; ring.
  - rewrite Nat.add_succ_r in Hf. destruct Hf as [c Hc].
    destruct (IHk (fun x => sumn (n + k) (fun i => c i * x ^ i) - c (n + k)%nat / a * (r x * x ^ k))) as (g & s & Hg & Hs & Eg).
    { apply polylt_minus; [exists c; auto|]. apply polylt_scal. apply polylt_mulpow; auto. }
    exists (fun x => c (n + k)%nat / a * x ^ k + g x), s. repeat split; auto.
    + apply polylt_plus; [apply polylt_scal, polylt_pow|]. apply (polylt_mono k); auto.
    + intros x. rewrite Hc. simpl.
      replace (sumn (n + k) (fun i => c i * x ^ i))
        with (q x * g x + s x + c (n + k)%nat / a * (r x * x ^ k)) by (rewrite <- Eg; ring).
      rewrite E, pow_add. field. auto.
Qed.

(** A polynomial with n coefficients and n distinct zeros is zero. *)
Lemma poly_zeros n : forall f l, polylt n f -> NoDup l -> (n <= length l)%nat ->
  (forall t, In t l -> f t = 0) -> forall x, f x = 0.
Proof.
  induction n; intros f l Hf Hnd Hlen Hz x.
  - destruct Hf as [c Hc]. rewrite Hc. reflexivity.
  - destruct l as [|t0 l]; [simpl in Hlen; lia|].
    inversion Hnd as [|? ? Hni Hnd']; subst.
    destruct (poly_div 1 (fun x => x - t0)) with (k := n) (f := f) as (g & s & Hg & Hs & E).
    { exists 1, (fun _ => - t0). repeat split; [lra|apply polylt_const|]. intros; ring. }
    { auto. }
    destruct Hs as [sc Hsc].
    assert (Hs0 : forall y, s y = 0).
    { assert (s t0 = 0). { pose proof (E t0) as H0. rewrite Hz in H0 by (left; auto). lra. }
      intros y. rewrite Hsc. rewrite Hsc in H. simpl in *. lra. }
    assert (Hg0 : forall y, g y = 0).
    { apply (IHn g l); auto; [simpl in Hlen; lia|].
      intros t Ht. pose proof (E t) as H0. rewrite Hz in H0 by (right; auto). rewrite Hs0 in H0.
      assert (t - t0 <> 0). { intros Heq. apply Hni. replace t0 with t by lra. auto. }
      assert ((t - t0) * g t = 0) by lra. apply Rmult_integral in H1 as [|]; auto. contradiction. }
    rewrite E, Hg0, Hs0. ring.
Qed.

(** Legendre polynomials form such a family. *)
Lemma legP_leads k : leads k (legP k).
Proof.
  revert k; apply pair_ind.
  - exists 1, (fun _ => 0). repeat split; [lra|apply polylt_zero|]. intros; rewrite legP_0; simpl; lra.
  - exists 1, (fun _ => 0). repeat split; [lra|apply polylt_zero|]. intros; rewrite legP_1; simpl; lra.
  - intros k (a0 & r0 & H0 & P0 & E0) (a1 & r1 & H1 & P1 & E1).
    pose proof (INR_nonneg k).
    exists ((2 * INR k + 3) / (INR k + 2) * a1),
      (fun x => (2 * INR k + 3) / (INR k + 2) * (r1 x * x ^ 1) - (INR k + 1) / (INR k + 2) * legP k x).
    repeat split.
    + apply Rmult_integral_contrapositive_currified; auto.
      apply Rgt_not_eq, Rdiv_lt_0_compat; lra.
    + apply polylt_minus.
      * apply polylt_scal. replace (S (S k)) with (S k + 1)%nat by lia. apply polylt_mulpow; auto.
      * apply polylt_scal. apply (polylt_mono (S k)); [lia|]. apply leads_polylt. exists a0, r0; auto.
    + intros x. rewrite legP_SS, E1. simpl. field. lra.
Qed.
Lemma legP_graded : graded legP.
Proof. intros m. apply legP_leads. Qed.
Lemma legP_polylt k : polylt (S k) (legP k).
Proof. apply leads_polylt, legP_leads. Qed.
