(** Lemmas about [sumn]. *)
From Coq Require Import List Reals Arith Bool Lia Lra.
From Verif.Model Require Import Num.
Import ListNotations.
Open Scope R_scope.

Lemma sumn_S n f : sumn (S n) f = sumn n f + f n.
Proof. reflexivity. Qed.

Lemma sumn_ext n f g : (forall i, (i < n)%nat -> f i = g i) -> sumn n f = sumn n g.
Proof. induction n; simpl; intros H; auto. rewrite (H n), IHn; auto. Qed.

Lemma sumn_plus n f g : sumn n (fun i => f i + g i) = sumn n f + sumn n g.
Proof. induction n; simpl; [lra|rewrite IHn; lra]. Qed.

Lemma sumn_minus n f g : sumn n (fun i => f i - g i) = sumn n f - sumn n g.
Proof. induction n; simpl; [lra|rewrite IHn; lra]. Qed.

Lemma sumn_opp n f : sumn n (fun i => - f i) = - sumn n f.
Proof. induction n; simpl; [lra|rewrite IHn; lra]. Qed.

Lemma sumn_scal n c f : sumn n (fun i => c * f i) = c * sumn n f.
Proof. induction n; simpl; [lra|rewrite IHn; lra]. Qed.

Lemma sumn_scal_r n c f : sumn n (fun i => f i * c) = sumn n f * c.
Proof. induction n; simpl; [lra|rewrite IHn; lra]. Qed.

Lemma sumn_zero n f : (forall i, (i < n)%nat -> f i = 0) -> sumn n f = 0.
Proof. induction n; simpl; intros H; auto. rewrite (H n), IHn; auto. lra. Qed.

Lemma sumn_const n c : sumn n (fun _ => c) = INR n * c.
Proof. induction n; [simpl; lra|]. rewrite sumn_S, IHn, S_INR. lra. Qed.

Lemma sumn_single n f k : (k < n)%nat -> (forall i, (i < n)%nat -> i <> k -> f i = 0) -> sumn n f = f k.
Proof.
  induction n; intros Hk H; [lia|]. simpl.
  destruct (Nat.eq_dec k n) as [->|Hne].
  - rewrite sumn_zero; [lra|]. intros i Hi. apply H; lia.
  - rewrite IHn; try lia; [rewrite (H n); auto; lra|]. intros i Hi. apply H; lia.
Qed.

Lemma sumn_delta n k (f : nat -> R) : (k < n)%nat ->
  sumn n (fun i => if Nat.eqb i k then f i else 0) = f k.
Proof.
  intros Hk. rewrite (sumn_single n _ k Hk).
  - rewrite Nat.eqb_refl; auto.
  - intros i _ Hi. apply Nat.eqb_neq in Hi. rewrite Hi; auto.
Qed.

Lemma sumn_app n m f : sumn (n + m) f = sumn n f + sumn m (fun i => f (n + i)%nat).
Proof.
  induction m; simpl; [rewrite Nat.add_0_r; lra|].
  rewrite Nat.add_succ_r. simpl. rewrite IHm. lra.
Qed.

Lemma sumn_shift n f : sumn (S n) f = f 0%nat + sumn n (fun i => f (S i)).
Proof. change (S n) with (1 + n)%nat. rewrite (sumn_app 1 n f). simpl. lra. Qed.

Lemma sumn_swap n m (f : nat -> nat -> R) :
  sumn n (fun i => sumn m (fun j => f i j)) = sumn m (fun j => sumn n (fun i => f i j)).
Proof.
  induction n; simpl.
  - rewrite sumn_zero; auto.
  - rewrite IHn, <- sumn_plus. auto.
Qed.

Lemma sumn_rev n : forall f, sumn n f = sumn n (fun i => f (n - 1 - i)%nat).
Proof.
  induction n; intros f; auto. rewrite sumn_shift. rewrite sumn_S.
  rewrite (IHn (fun i => f (S i))). replace (S n - 1 - n)%nat with 0%nat by lia.
  rewrite (sumn_ext n (fun i => f (S n - 1 - i)%nat) (fun i => f (S (n - 1 - i)))); [lra|].
  intros i Hi. f_equal. lia.
Qed.

Lemma sumn_nonneg n f : (forall i, (i < n)%nat -> 0 <= f i) -> 0 <= sumn n f.
Proof. induction n; simpl; intros H; [lra|]. specialize (H n) as Hn. pose proof (IHn ltac:(intros; apply H; lia)). pose proof (Hn ltac:(lia)). lra. Qed.

Lemma sumn_le n f g : (forall i, (i < n)%nat -> f i <= g i) -> sumn n f <= sumn n g.
Proof. induction n; simpl; intros H; [lra|]. specialize (H n) as Hn. pose proof (IHn ltac:(intros; apply H; lia)). pose proof (Hn ltac:(lia)). lra. Qed.

Lemma sumn_abs n f : Rabs (sumn n f) <= sumn n (fun i => Rabs (f i)).
Proof. induction n; simpl; [rewrite Rabs_R0; lra|]. eapply Rle_trans; [apply Rabs_triang|]. lra. Qed.

Lemma sumn_pos_term n f k : (k < n)%nat -> (forall i, (i < n)%nat -> 0 <= f i) -> f k <= sumn n f.
Proof.
  induction n; intros Hk H; [lia|]. simpl.
  assert (0 <= sumn n f) by (apply sumn_nonneg; intros; apply H; lia).
  destruct (Nat.eq_dec k n) as [->|]; [lra|].
  specialize (IHn ltac:(lia) ltac:(intros; apply H; lia)). pose proof (H n ltac:(lia)). lra.
Qed.

Lemma sumn_zero_inv n f : (forall i, (i < n)%nat -> 0 <= f i) -> sumn n f = 0 ->
  forall i, (i < n)%nat -> f i = 0.
Proof.
  intros H E i Hi. pose proof (sumn_pos_term n f i Hi H). pose proof (H i Hi). lra.
Qed.

Lemma sumn_mul n m f g : sumn n f * sumn m g = sumn n (fun i => sumn m (fun j => f i * g j)).
Proof.
  rewrite <- sumn_scal_r. apply sumn_ext. intros i _. rewrite <- sumn_scal. auto.
Qed.

(** Telescoping. *)
Lemma sumn_tele n (f : nat -> R) : sumn n (fun i => f (S i) - f i) = f n - f 0%nat.
Proof. induction n; simpl; [lra|rewrite IHn; lra]. Qed.

Lemma sumn_le_extend n m f : (n <= m)%nat -> (forall i, (n <= i < m)%nat -> f i = 0) -> sumn m f = sumn n f.
Proof.
  intros Hle H. induction Hle; auto. simpl. rewrite IHHle, (H m); [lra|lia|]. intros; apply H; lia.
Qed.
