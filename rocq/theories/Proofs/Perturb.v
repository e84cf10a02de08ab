(** Changing a decomposition slightly. *)
From Coq Require Import Arith Bool Reals Lra Lia.
From Coquelicot Require Import Coquelicot.
From Coq Require Import List.
From Verif.Model Require Import Base Num.
From Verif.Proofs Require Import SumFacts EckartYoung SvdExists RoundedSVE Polar.
Import ListNotations.
Open Scope R_scope.

Lemma ip_lin_l m k (x : nat -> R) (f : nat -> nat -> R) g : ip m (fun i => sumn k (fun l => x l * f l i)) g = sumn k (fun l => x l * ip m (f l) g).
Proof.
  unfold ip. rewrite (sumn_ext m _ (fun i => sumn k (fun l => x l * (f l i * g i)))).
  - rewrite sumn_swap. apply sumn_ext. intros l _. apply sumn_scal.
  - intros i _. rewrite <- sumn_scal_r. apply sumn_ext. intros. ring.
Qed.
Lemma ip_sym m f g : ip m f g = ip m g f. Proof. unfold ip. apply sumn_ext. intros. ring. Qed.
Lemma ip_sqr m f : ip m f f = sumn m (fun i => Rsqr (f i)). Proof. reflexivity. Qed.

Definition gram (m k : nat) (u : nat -> nat -> R) : R := sumn k (fun l => sumn k (fun j => Rsqr (ip m (u l) (u j) - delta l j))).
Definition size2 (k m : nat) (u : nat -> nat -> R) : R := sumn k (fun l => sumn m (fun i => Rsqr (u l i))).

Lemma delta_sum k (x : nat -> R) l : (l < k)%nat -> sumn k (fun j => x j * delta l j) = x l.
Proof.
  induction k as [|k IH]; intros Hl; [lia|]. cbn [sumn]. unfold delta at 2. destruct (Nat.eqb_spec l k) as [->|N].
  - rewrite sumn_zero; [ring|]. intros j Hj. unfold delta. destruct (Nat.eqb_spec k j); [lia|ring].
  - rewrite IH by lia. ring.
Qed.

Section Norms.
Variables (m k : nat) (u : nat -> nat -> R) (a : R).
Hypothesis Ha : 0 <= a.
Hypothesis Hg : gram m k u <= Rsqr a.

Lemma op_norm (x : nat -> R) : sumn m (fun i => Rsqr (sumn k (fun l => x l * u l i))) <= (1 + a) * sumn k (fun l => Rsqr (x l)).
Proof.
  set (N := sumn k (fun l => Rsqr (x l))). assert (PN : 0 <= N) by (apply sumn_nonneg; intros; apply Rle_0_sqr).
  assert (E : sumn m (fun i => Rsqr (sumn k (fun l => x l * u l i))) = N + sumn k (fun l => sumn k (fun j => (x l * x j) * (ip m (u l) (u j) - delta l j)))).
  { rewrite <- ip_sqr, ip_lin_l. unfold N. rewrite <- sumn_plus. apply sumn_ext. intros l Hl. rewrite ip_sym, ip_lin_l.
    transitivity (x l * (sumn k (fun j => x j * delta l j) + sumn k (fun j => x j * (ip m (u l) (u j) - delta l j)))).
    - rewrite <- sumn_plus. f_equal. apply sumn_ext. intros j _. rewrite (ip_sym m (u j)). ring.
    - rewrite delta_sum by auto. rewrite Rmult_plus_distr_l, <- sumn_scal. unfold Rsqr. f_equal. apply sumn_ext. intros. ring. }
  rewrite E. pose proof (cauchy2 k k (fun l j => x l * x j) (fun l j => ip m (u l) (u j) - delta l j)) as C.
  assert (E1 : sumn k (fun l => sumn k (fun j => Rsqr (x l * x j))) = Rsqr N).
  { unfold Rsqr at 2. unfold N at 1. rewrite <- sumn_scal_r. apply sumn_ext. intros l _. unfold N. rewrite <- sumn_scal. apply sumn_ext. intros j _. apply Rsqr_mult. }
  cbv beta in C. rewrite E1, sqrt_Rsqr in C by auto. fold (gram m k u) in C.
  assert (S : sqrt (gram m k u) <= a) by (rewrite <- (sqrt_Rsqr a) by auto; apply sqrt_le_1_alt; exact Hg).
  assert (N * sqrt (gram m k u) <= N * a) by (apply Rmult_le_compat_l; auto). lra.
Qed.

Lemma co_norm (x : nat -> R) : sumn k (fun l => Rsqr (ip m (u l) x)) <= (1 + a) * sumn m (fun i => Rsqr (x i)).
Proof.
  set (y := fun l => ip m (u l) x). set (Y := sumn k (fun l => Rsqr (y l))). set (X := sumn m (fun i => Rsqr (x i))).
  assert (PY : 0 <= Y) by (apply sumn_nonneg; intros; apply Rle_0_sqr). assert (PX : 0 <= X) by (apply sumn_nonneg; intros; apply Rle_0_sqr).
  change (Y <= (1 + a) * X).
  assert (E : ip m (fun i => sumn k (fun l => y l * u l i)) x = Y) by (rewrite ip_lin_l; reflexivity).
  pose proof (cauchy m (fun i => sumn k (fun l => y l * u l i)) x) as C. rewrite E, !ip_sqr in C. pose proof (op_norm y) as O. fold Y in O. fold X in C.
  assert (Q : sumn m (fun i => Rsqr (sumn k (fun l => y l * u l i))) * X <= (1 + a) * Y * X) by (apply Rmult_le_compat_r; auto).
  assert (Z : Y * Y <= Y * ((1 + a) * X)) by (unfold Rsqr in C at 1; lra).
  destruct (Rle_lt_or_eq_dec 0 Y PY) as [P|P]; [apply (Rmult_le_reg_l Y); auto|]. rewrite <- P. apply Rmult_le_pos; lra.
Qed.

Lemma unit_size l : (l < k)%nat -> ip m (u l) (u l) <= 1 + a.
Proof.
  intros Hl. assert (B : Rsqr (ip m (u l) (u l) - delta l l) <= Rsqr a).
  { eapply Rle_trans; [|exact Hg]. unfold gram.
    eapply Rle_trans; [|apply (sumn_pos_term k (fun l => sumn k (fun j => Rsqr (ip m (u l) (u j) - delta l j))) l); auto; intros; apply sumn_nonneg; intros; apply Rle_0_sqr].
    apply (sumn_pos_term k (fun j => Rsqr (ip m (u l) (u j) - delta l j)) l); auto. intros; apply Rle_0_sqr. }
  apply Rsqr_le_abs_0 in B. rewrite (Rabs_pos_eq a) in B by auto. unfold delta in B. rewrite Nat.eqb_refl in B. apply Rabs_le_between in B. lra.
Qed.

(** A sum of products with these vectors. *)
Lemma product_size p (X : nat -> nat -> R) b : a <= 1 -> size2 k p X <= Rsqr b ->
  sumn p (fun i => sumn m (fun j => Rsqr (sumn k (fun l => X l i * u l j)))) <= Rsqr (3 / 2 * b).
Proof.
  intros Ha1 HX. eapply Rle_trans; [apply sumn_le; intros i _; apply op_norm|]. cbv beta. rewrite sumn_scal, sumn_swap. fold (size2 k p X).
  rewrite Rsqr_mult. apply Rmult_le_compat; [lra| |unfold Rsqr; lra|exact HX]. unfold size2. apply sumn_nonneg. intros. apply sumn_nonneg. intros. apply Rle_0_sqr.
Qed.
End Norms.

Lemma gram_perturb m k (u w : nat -> nat -> R) a al : 0 <= a <= 1 -> 0 <= al <= 1 -> gram m k u <= Rsqr a ->
  size2 k m (fun l i => w l i - u l i) <= Rsqr al -> gram m k w <= Rsqr (a + 4 * al).
Proof.
  intros Ha Hal Hg Hd. set (e := fun l i => w l i - u l i) in *.
  assert (T1 : sumn k (fun l => sumn k (fun j => Rsqr (ip m (u l) (e j)))) <= Rsqr (3 / 2 * al)).
  { rewrite sumn_swap. eapply Rle_trans; [apply sumn_le; intros j _; apply (co_norm m k u a (proj1 Ha) Hg)|]. cbv beta. rewrite sumn_scal. fold (size2 k m e).
    rewrite Rsqr_mult. apply Rmult_le_compat; [lra| |unfold Rsqr; lra|exact Hd]. unfold size2. apply sumn_nonneg. intros. apply sumn_nonneg. intros. apply Rle_0_sqr. }
  assert (T2 : sumn k (fun l => sumn k (fun j => Rsqr (ip m (e l) (u j)))) <= Rsqr (3 / 2 * al)).
  { rewrite sumn_swap. eapply Rle_trans; [|exact T1]. right. apply sumn_ext. intros. apply sumn_ext. intros. rewrite ip_sym. reflexivity. }
  assert (T3 : sumn k (fun l => sumn k (fun j => Rsqr (ip m (e l) (e j)))) <= Rsqr (al * al)).
  { rewrite Rsqr_mult. apply Rle_trans with (size2 k m e * size2 k m e).
    - unfold size2 at 1. rewrite <- sumn_scal_r. apply sumn_le. intros l _. unfold size2. rewrite <- sumn_scal. apply sumn_le. intros j _. rewrite <- !ip_sqr. apply cauchy.
    - assert (P : 0 <= size2 k m e) by (unfold size2; apply sumn_nonneg; intros; apply sumn_nonneg; intros; apply Rle_0_sqr). apply Rmult_le_compat; auto. }
  pose proof (minkowski2 k k _ _ a (3 / 2 * al) (proj1 Ha) ltac:(lra) Hg T1) as M1.
  pose proof (minkowski2 k k _ _ (a + 3 / 2 * al) (3 / 2 * al) ltac:(lra) ltac:(lra) M1 T2) as M2.
  assert (P2 : 0 <= al * al) by (apply Rmult_le_pos; lra).
  pose proof (minkowski2 k k _ _ (a + 3 / 2 * al + 3 / 2 * al) (al * al) ltac:(lra) P2 M2 T3) as M3.
  eapply Rle_trans; [|eapply Rle_trans; [exact M3|]].
  - right. unfold gram. apply sumn_ext. intros l _. apply sumn_ext. intros j _. f_equal.
    assert (Ew : forall l, (forall i, w l i = u l i + e l i)) by (intros; unfold e; ring).
    assert (Q : ip m (w l) (w j) = ip m (u l) (u j) + ip m (u l) (e j) + ip m (e l) (u j) + ip m (e l) (e j)).
    { unfold ip. rewrite <- !sumn_plus. apply sumn_ext. intros i _. rewrite !Ew. ring. }
    rewrite Q. ring.
  - assert (al * al <= 1 * al) by (apply Rmult_le_compat_r; lra). apply Rsqr_incr_1; lra.
Qed.

Lemma product_perturb m n k (s s' : nat -> R) (u u' v v' : nat -> nat -> R) a c a' al ga rr s0 :
  0 <= a <= 1 -> 0 <= c <= 1 -> 0 <= a' <= 1 -> 0 <= al -> 0 <= ga -> 0 <= rr -> 0 <= s0 ->
  gram m k u <= Rsqr a -> gram n k v <= Rsqr c -> gram m k u' <= Rsqr a' ->
  size2 k m (fun l i => u' l i - u l i) <= Rsqr al -> size2 k n (fun l i => v' l i - v l i) <= Rsqr ga ->
  sumn k (fun l => Rsqr (s l - s' l)) <= Rsqr rr -> (forall l, (l < k)%nat -> 0 <= s' l <= s0) ->
  sumn m (fun i => sumn n (fun j => Rsqr (sumn k (fun l => s l * (u l i * v l j)) - sumn k (fun l => s' l * (u' l i * v' l j)))))
  <= Rsqr (9 / 4 * rr + 3 / 2 * (s0 * (al + ga))).
Proof.
  intros Ha Hc Ha' Hal Hga Hr Hs0 Gu Gv Gu' Du Dv Ds Hs.
  assert (Scale : forall p (e : nat -> nat -> R) b, 0 <= b -> size2 k p e <= Rsqr b -> size2 k p (fun l i => s' l * e l i) <= Rsqr (s0 * b)).
  { intros p e b Hb He. rewrite Rsqr_mult. apply Rle_trans with (Rsqr s0 * size2 k p e); [|apply Rmult_le_compat_l; [apply Rle_0_sqr|exact He]].
    unfold size2. rewrite <- sumn_scal. apply sumn_le. intros l Hl. rewrite <- sumn_scal. apply sumn_le. intros i _. rewrite Rsqr_mult.
    apply Rmult_le_compat_r; [apply Rle_0_sqr|]. specialize (Hs l Hl). apply Rsqr_incr_1; lra. }
  assert (B1 : size2 k m (fun l i => (s l - s' l) * u l i) <= Rsqr (3 / 2 * rr)).
  { rewrite Rsqr_mult. apply Rle_trans with (2 * sumn k (fun l => Rsqr (s l - s' l))).
    - unfold size2. rewrite <- sumn_scal. apply sumn_le. intros l Hl.
      rewrite (sumn_ext m _ (fun i => Rsqr (s l - s' l) * Rsqr (u l i))) by (intros; apply Rsqr_mult). rewrite sumn_scal, <- ip_sqr.
      pose proof (unit_size m k u a (proj1 Ha) Gu l Hl). rewrite (Rmult_comm 2). apply Rmult_le_compat_l; [apply Rle_0_sqr|lra].
    - apply Rmult_le_compat; [lra| |unfold Rsqr; lra|exact Ds]. apply sumn_nonneg. intros. apply Rle_0_sqr. }
  pose proof (product_size n k v c (proj1 Hc) Gv m _ _ (proj2 Hc) B1) as T1.
  assert (Du' : size2 k m (fun l i => u l i - u' l i) <= Rsqr al).
  { eapply Rle_trans; [|exact Du]. right. apply sumn_ext. intros. apply sumn_ext. intros. rewrite Rsqr_minus. rewrite Rsqr_minus. ring. }
  assert (Dv' : size2 k n (fun l i => v l i - v' l i) <= Rsqr ga).
  { eapply Rle_trans; [|exact Dv]. right. apply sumn_ext. intros. apply sumn_ext. intros. rewrite Rsqr_minus. rewrite Rsqr_minus. ring. }
  pose proof (product_size n k v c (proj1 Hc) Gv m _ _ (proj2 Hc) (Scale m _ al Hal Du')) as T2.
  pose proof (product_size m k u' a' (proj1 Ha') Gu' n _ _ (proj2 Ha') (Scale n _ ga Hga Dv')) as T3. rewrite sumn_swap in T3.
  assert (P1 : 0 <= s0 * al) by (apply Rmult_le_pos; auto). assert (P2 : 0 <= s0 * ga) by (apply Rmult_le_pos; auto).
  pose proof (minkowski2 m n _ _ (3 / 2 * (3 / 2 * rr)) (3 / 2 * (s0 * al)) ltac:(lra) ltac:(lra) T1 T2) as M1. pose proof (minkowski2 m n _ _ (3 / 2 * (3 / 2 * rr) + 3 / 2 * (s0 * al)) (3 / 2 * (s0 * ga)) ltac:(lra) ltac:(lra) M1 T3) as M2.
  eapply Rle_trans; [|eapply Rle_trans; [exact M2|right; f_equal; field]]. right.
  apply sumn_ext. intros i _. apply sumn_ext. intros j _. f_equal. rewrite <- sumn_minus, <- !sumn_plus. apply sumn_ext. intros. ring.
Qed.
