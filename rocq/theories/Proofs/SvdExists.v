(** Every real matrix has a singular value decomposition. *)
From Coq Require Import Arith Bool Reals Lra Lia Psatz.
From Coquelicot Require Import Coquelicot.
From Verif.Model Require Import Base Num.
From Verif.Proofs Require Import BaseFacts SumFacts EckartYoung BoxMax.
Open Scope R_scope.

Definition ip (n : nat) (f g : nat -> R) : R := sumn n (fun q => f q * g q).

Lemma ip_inn n f g : ip n f g = inn n (fun _ => 1) f g.
Proof. apply sumn_ext. intros; ring. Qed.
Lemma ip_sym n f g : ip n f g = ip n g f.
Proof. apply sumn_ext. intros; ring. Qed.
Lemma ip_pos n f : 0 <= ip n f f.
Proof. apply sumn_nonneg. intros. nra. Qed.
Lemma ip_scal n c f g : ip n (fun q => c * f q) g = c * ip n f g.
Proof. unfold ip. rewrite <- sumn_scal. apply sumn_ext. intros; ring. Qed.
Lemma ip_plus n f g h : ip n (fun q => f q + g q) h = ip n f h + ip n g h.
Proof. unfold ip. rewrite <- sumn_plus. apply sumn_ext. intros; ring. Qed.
Lemma ip_ext n f g f' g' : (forall q, (q < n)%nat -> f q = f' q) -> (forall q, (q < n)%nat -> g q = g' q) -> ip n f g = ip n f' g'.
Proof. intros H1 H2. apply sumn_ext. intros q Hq. rewrite H1, H2 by auto. reflexivity. Qed.

Lemma ip_line n f g t : ip n (fun q => f q + t * g q) (fun q => f q + t * g q) = ip n f f + 2 * t * ip n f g + t * t * ip n g g.
Proof.
  unfold ip. rewrite <- !sumn_scal, <- !sumn_plus. apply sumn_ext. intros; ring.
Qed.

Lemma cauchy n f g : Rsqr (ip n f g) <= ip n f f * ip n g g.
Proof.
  destruct (Req_dec (ip n g g) 0) as [E|E].
  - assert (ip n f g = 0).
    { apply sumn_zero. intros i Hi. pose proof (sumn_zero_inv n (fun q => g q * g q) ltac:(intros; nra) E i Hi) as H. cbv beta in H.
      assert (g i = 0) by nra. rewrite H0. ring. }
    rewrite H, E. unfold Rsqr. lra.
  - pose proof (ip_pos n g) as P. pose proof (ip_pos n (fun q => f q + (- ip n f g / ip n g g) * g q)) as H. rewrite ip_line in H.
    assert (0 < ip n g g) by lra.
    replace (ip n f f + 2 * (- ip n f g / ip n g g) * ip n f g + - ip n f g / ip n g g * (- ip n f g / ip n g g) * ip n g g)
      with (ip n f f - Rsqr (ip n f g) / ip n g g) in H by (unfold Rsqr; field; lra).
    assert (Rsqr (ip n f g) / ip n g g <= ip n f f) by lra. apply Rle_div_l in H1; lra.
Qed.

Lemma slope_zero G K : 0 <= K -> (forall t, Rabs t <= 1 -> t * G <= K * (t * t)) -> G = 0.
Proof.
  intros HK H. set (D := Rabs G + K + 1). pose proof (Rabs_pos G) as PG. assert (PD : 0 < D) by (unfold D; lra).
  assert (Ht : Rabs (G / D) <= 1).
  { unfold Rdiv. rewrite Rabs_mult, (Rabs_right (/ D)) by (apply Rle_ge, Rlt_le, Rinv_0_lt_compat; auto). apply Rle_div_l; [auto|]. unfold D. lra. }
  specialize (H _ Ht). replace (G / D * G) with (G * G / D) in H by (field; lra). replace (K * (G / D * (G / D))) with (K * (G * G) / D / D) in H by (field; lra).
  apply (Rmult_le_compat_r (D * D)) in H; [|nra]. replace (G * G / D * (D * D)) with (G * G * D) in H by (field; lra).
  replace (K * (G * G) / D / D * (D * D)) with (K * (G * G)) in H by (field; lra). unfold D in H.
  assert (G * G * (Rabs G + 1) <= 0) by nra. assert (G * G <= 0) by nra. nra.
Qed.

(** * The largest singular value *)
Section Top.
Variables (m n : nat) (A : nat -> nat -> R).
Definition act (v : nat -> R) (i : nat) : R := sumn n (fun j => A i j * v j).
Definition nrm2 : R := sumn m (fun i => sumn n (fun j => A i j * A i j)).
Let q (v : nat -> R) : R := ip m (act v) (act v).
Let h (v : nat -> R) : R := q v - nrm2 * (ip n v v * ip n v v).

Lemma act_line v w t i : act (fun j => v j + t * w j) i = act v i + t * act w i.
Proof. unfold act. rewrite <- sumn_scal, <- sumn_plus. apply sumn_ext. intros; ring. Qed.

Lemma q_bound v : q v <= nrm2 * ip n v v.
Proof.
  unfold q, nrm2, ip at 1. rewrite <- sumn_scal_r. apply sumn_le. intros i Hi. exact (cauchy n (A i) v).
Qed.

Lemma q_line v w t : q (fun j => v j + t * w j) = q v + 2 * t * ip m (act v) (act w) + t * t * q w.
Proof. unfold q. rewrite <- ip_line. apply ip_ext; intros; apply act_line. Qed.

Lemma h_BL : BL n h.
Proof.
  assert (Ha : forall i, BL n (fun v => act v i)).
  { intros i. apply (BL_sumn n n (fun j v => A i j * v j)). intros j Hj. apply (BL_mult n (fun _ => A i j) (fun v => v j)); [apply BL_const|apply BL_coord; auto]. }
  assert (Hv : BL n (fun v => ip n v v)).
  { apply (BL_sumn n n (fun j v => v j * v j)). intros j Hj. apply (BL_mult n (fun v => v j) (fun v => v j)); apply BL_coord; auto. }
  assert (Hq : BL n q).
  { apply (BL_sumn n m (fun i v => act v i * act v i)). intros i Hi. apply (BL_mult n (fun v => act v i) (fun v => act v i)); auto. }
  destruct (BL_plus n q (fun v => - nrm2 * (ip n v v * ip n v v)) Hq) as (B & L & P & Q & H1 & H2).
  { apply (BL_mult n (fun _ => - nrm2) (fun v => ip n v v * ip n v v)); [apply BL_const|]. apply (BL_mult n (fun v => ip n v v) (fun v => ip n v v)); auto. }
  exists B, L. split; auto. split; auto. unfold h. split; intros.
  - replace (q v - nrm2 * (ip n v v * ip n v v)) with (q v + - nrm2 * (ip n v v * ip n v v)) by ring. auto.
  - replace (q v - nrm2 * (ip n v v * ip n v v) - (q w - nrm2 * (ip n w w * ip n w w)))
      with (q v + - nrm2 * (ip n v v * ip n v v) - (q w + - nrm2 * (ip n w w * ip n w w))) by ring. auto.
Qed.

Lemma box_or v : forall d, (d <= n)%nat -> box d v \/ 1 < ip n v v.
Proof.
  induction d as [|d IH]; intros Hd; [left; intros i Hi; lia|]. destruct IH as [IH|IH]; [lia| |auto].
  destruct (Rle_dec (v d * v d) 1) as [H|H].
  - left. intros i Hi. destruct (Nat.eq_dec i d) as [->|]; [nra|apply IH; lia].
  - right. apply Rlt_le_trans with (v d * v d); [lra|]. apply (sumn_pos_term n (fun j => v j * v j) d); [lia|]. intros; nra.
Qed.

Hypothesis Hne : 0 < nrm2.

Lemma global_max : exists v, forall w, h w <= h v.
Proof.
  destruct (box_max n h h_BL) as (v & Hv & Hmax). exists v. intros w.
  destruct (box_or w n ltac:(lia)) as [H|H]; [auto|].
  apply Rle_trans with (h (fun _ => 0)).
  - unfold h. pose proof (q_bound w) as B.
    assert (E0 : q (fun _ => 0) = 0). { unfold q. apply sumn_zero. intros i _. unfold act. rewrite sumn_zero; [ring|]. intros; ring. }
    assert (E1 : ip n (fun _ => 0) (fun _ => 0) = 0) by (apply sumn_zero; intros; ring).
    rewrite E0, E1. assert (nrm2 * ip n w w <= nrm2 * (ip n w w * ip n w w)) by (apply Rmult_le_compat_l; nra). lra.
  - apply Hmax. intros i Hi. lra.
Qed.

Lemma top_vector : exists v p, p = ip n v v /\ 0 < p /\
  (forall w, ip m (act v) (act w) = 2 * nrm2 * p * ip n v w) /\
  (forall w, q w <= 2 * nrm2 * p * ip n w w).
Proof.
  destruct global_max as [v Hmax]. set (p := ip n v v). pose proof (ip_pos n v) as Pp. fold p in Pp.
  assert (Hgrad : forall w, ip m (act v) (act w) = 2 * nrm2 * p * ip n v w).
  { intros w. set (a := ip m (act v) (act w)). set (d := ip n v w). set (e := ip n w w). pose proof (ip_pos n w) as Pe. fold e in Pe.
    assert (Pq : 0 <= q w) by apply ip_pos.
    assert (E : 2 * a - 4 * nrm2 * p * d = 0); [|lra].
    apply slope_zero with (K := nrm2 * (2 * p * e + (2 * Rabs d + e) * (2 * Rabs d + e))).
    - apply Rmult_le_pos; [lra|]. pose proof (Rabs_pos d). assert (0 <= p * e) by (apply Rmult_le_pos; lra). nra.
    - intros t Ht. pose proof (Hmax (fun j => v j + t * w j)) as H. unfold h in H. rewrite q_line, ip_line in H. fold a d e p in H.
      assert (Hb : (2 * d + t * e) * (2 * d + t * e) <= (2 * Rabs d + e) * (2 * Rabs d + e)).
      { apply Rsqr_le_abs_1. rewrite (Rabs_right (2 * Rabs d + e)) by (pose proof (Rabs_pos d); lra). eapply Rle_trans; [apply Rabs_triang|].
        rewrite !Rabs_mult. rewrite (Rabs_right 2), (Rabs_right e) by lra. nra. }
      assert (Hb2 : nrm2 * (t * t) * ((2 * d + t * e) * (2 * d + t * e)) <= nrm2 * (t * t) * ((2 * Rabs d + e) * (2 * Rabs d + e))).
      { apply Rmult_le_compat_l; auto. apply Rmult_le_pos; [lra|nra]. }
      assert (Htq : 0 <= t * t * q w) by (apply Rmult_le_pos; [nra|auto]).
      replace (nrm2 * (2 * p * e + (2 * Rabs d + e) * (2 * Rabs d + e)) * (t * t)) with
        (nrm2 * (t * t) * (2 * p * e) + nrm2 * (t * t) * ((2 * Rabs d + e) * (2 * Rabs d + e))) by ring.
      assert (q v + 2 * t * a + t * t * q w - nrm2 * ((p + 2 * t * d + t * t * e) * (p + 2 * t * d + t * t * e)) - (q v - nrm2 * (p * p)) =
        t * (2 * a - 4 * nrm2 * p * d) + t * t * q w - nrm2 * (t * t) * (2 * p * e) - nrm2 * (t * t) * ((2 * d + t * e) * (2 * d + t * e))) by ring.
      lra. }
  assert (Hqv : q v = 2 * nrm2 * p * p) by (unfold q; rewrite Hgrad; reflexivity).
  assert (Hall : forall w, q w <= 2 * nrm2 * p * ip n w w).
  { intros w. set (e := ip n w w). pose proof (ip_pos n w) as Pe. fold e in Pe. assert (Pq : 0 <= q w) by apply ip_pos.
    destruct (Req_dec e 0) as [E|E]. { pose proof (q_bound w) as B. fold e in B. rewrite E in *. lra. }
    assert (He0 : 0 < e) by lra.
    set (t := sqrt (q w / (2 * nrm2 * (e * e)))).
    assert (Htt : t * t = q w / (2 * nrm2 * (e * e))).
    { unfold t. apply sqrt_sqrt. apply Rmult_le_pos; auto. apply Rlt_le, Rinv_0_lt_compat. apply Rmult_lt_0_compat; [lra|nra]. }
    pose proof (Hmax (fun j => 0 + t * w j)) as H. unfold h in H. rewrite (q_line (fun _ => 0)), (ip_line n (fun _ => 0)) in H. fold e p in H. rewrite Hqv in H.
    assert (E0 : q (fun _ => 0) = 0). { unfold q. apply sumn_zero. intros i _. unfold act. rewrite sumn_zero; [ring|]. intros; ring. }
    assert (E1 : ip n (fun _ => 0) (fun _ => 0) = 0) by (apply sumn_zero; intros; ring).
    assert (E2 : ip n (fun _ => 0) w = 0) by (apply sumn_zero; intros; ring).
    assert (E3 : ip m (act (fun _ => 0)) (act w) = 0).
    { apply sumn_zero. intros i _. unfold act at 1. rewrite sumn_zero; [ring|]. intros; ring. }
    rewrite E0, E1, E2, E3 in H.
    replace (0 + 2 * t * 0 + t * t * q w - nrm2 * ((0 + 2 * t * 0 + t * t * e) * (0 + 2 * t * 0 + t * t * e)))
      with (t * t * q w - nrm2 * ((t * t) * (t * t)) * (e * e)) in H by ring.
    rewrite Htt in H. replace (q w / (2 * nrm2 * (e * e)) * q w - nrm2 * (q w / (2 * nrm2 * (e * e)) * (q w / (2 * nrm2 * (e * e)))) * (e * e))
      with (q w * q w / (4 * nrm2 * (e * e))) in H by (field; split; lra).
    replace (2 * nrm2 * p * p - nrm2 * (p * p)) with (nrm2 * (p * p)) in H by ring.
    assert (Pd : 0 < 4 * nrm2 * (e * e)) by (apply Rmult_lt_0_compat; [lra|apply Rmult_lt_0_compat; lra]).
    apply (proj1 (Rle_div_l _ _ _ Pd)) in H.
    apply Rsqr_incr_0_var; [|apply Rmult_le_pos; [apply Rmult_le_pos; lra|lra]].
    unfold Rsqr. eapply Rle_trans; [exact H|]. right. ring. }
  exists v, p. split; [reflexivity|]. split; [|split; auto].
  destruct (Req_dec p 0) as [E|E]; [exfalso|lra].
  assert (Z : forall j i, (j < n)%nat -> (i < m)%nat -> A i j = 0).
  { intros j i Hj Hi. set (ej := fun a => if Nat.eqb a j then 1 else 0). pose proof (Hall ej) as H. rewrite E in H.
    assert (Hq0 : q ej = 0) by (pose proof (ip_pos m (act ej)); unfold q in *; lra).
    pose proof (sumn_zero_inv m (fun i => act ej i * act ej i) ltac:(intros; nra) Hq0 i Hi) as H0. cbv beta in H0.
    assert (Ha : act ej i = A i j).
    { unfold act. rewrite (sumn_single n _ j Hj). - unfold ej. rewrite Nat.eqb_refl. ring.
      - intros a _ Ha. unfold ej. destruct (Nat.eqb_spec a j); [contradiction|ring]. }
    rewrite Ha in H0. nra. }
  assert (nrm2 = 0); [|lra]. apply sumn_zero. intros i Hi. apply sumn_zero. intros j Hj. rewrite Z by auto. ring.
Qed.

Lemma top : exists s u v, 0 < s /\ ip m u u = 1 /\ ip n v v = 1 /\
  (forall i, (i < m)%nat -> sumn n (fun j => A i j * v j) = s * u i) /\
  (forall j, (j < n)%nat -> sumn m (fun i => A i j * u i) = s * v j) /\
  (forall w, ip m (act w) (act w) <= s * s * ip n w w).
Proof.
  destruct top_vector as (v0 & p & Ep & Pp & Hg & Hall).
  assert (P2 : 0 < 2 * nrm2 * p) by (apply Rmult_lt_0_compat; lra).
  set (s := sqrt (2 * nrm2 * p)). assert (Ps : 0 < s) by (apply sqrt_lt_R0; auto). assert (Ess : s * s = 2 * nrm2 * p) by (apply sqrt_sqrt; lra).
  set (r := sqrt p). assert (Pr : 0 < r) by (apply sqrt_lt_R0; auto). assert (Err : r * r = p) by (apply sqrt_sqrt; lra).
  pose (v := fun j => / r * v0 j). pose (u := fun i => / s * act v i).
  assert (Hact : forall i, act v i = / r * act v0 i).
  { intros i. unfold act. rewrite <- sumn_scal. apply sumn_ext. intros; unfold v; ring. }
  assert (Hgv : forall w, ip m (act v) (act w) = s * s * ip n v w).
  { intros w. rewrite (ip_ext m (act v) (act w) (fun i => / r * act v0 i) (act w)) by (intros; auto). rewrite ip_scal, Hg. unfold v. rewrite ip_scal, Ess. ring. }
  assert (Hvv : ip n v v = 1).
  { unfold v. rewrite ip_scal, ip_sym, ip_scal, <- Ep, <- Err. field. lra. }
  exists s, u, v. split; auto. split.
  { unfold u. rewrite ip_scal, ip_sym, ip_scal, Hgv, Hvv. field. lra. }
  split; auto. split; [intros i Hi; unfold u; fold (act v i); field; lra|]. split.
  - intros j Hj. set (ej := fun a => if Nat.eqb a j then 1 else 0).
    assert (Ha : forall i, act ej i = A i j).
    { intros i. unfold act. rewrite (sumn_single n _ j Hj). - unfold ej. rewrite Nat.eqb_refl. ring.
      - intros a _ Ha. unfold ej. destruct (Nat.eqb_spec a j); [contradiction|ring]. }
    assert (Hv : ip n v ej = v j).
    { unfold ip. rewrite (sumn_single n _ j Hj). - unfold ej. rewrite Nat.eqb_refl. ring.
      - intros a _ Ha'. unfold ej. destruct (Nat.eqb_spec a j); [contradiction|ring]. }
    pose proof (Hgv ej) as H. rewrite Hv in H. transitivity (/ s * ip m (act v) (act ej)).
    + unfold ip. rewrite <- sumn_scal. apply sumn_ext. intros i _. rewrite Ha. unfold u. ring.
    + rewrite H. field. lra.
  - intros w. rewrite Ess. apply Hall.
Qed.
End Top.

(** * Orthonormal families *)
Definition ort (n d : nat) (e : nat -> nat -> R) : Prop :=
  forall i j, (i < d)%nat -> (j < d)%nat -> ip n (e i) (e j) = if Nat.eqb i j then 1 else 0.

Definition unit_at (j a : nat) : R := if Nat.eqb a j then 1 else 0.
Lemma ip_unit n f j : (j < n)%nat -> ip n (unit_at j) f = f j.
Proof.
  intros Hj. unfold ip. rewrite (sumn_single n _ j Hj).
  - unfold unit_at. rewrite Nat.eqb_refl. ring.
  - intros a _ Ha. unfold unit_at. destruct (Nat.eqb_spec a j); [contradiction|ring].
Qed.

Lemma ort_orth n d e : ort n d e <-> orth n (fun _ => 1) d e.
Proof. unfold ort, orth. split; intros H i j Hi Hj; specialize (H i j Hi Hj); rewrite ip_inn in *; exact H. Qed.

Lemma family_sum n d e : ort n d e -> sumn n (fun j => sumn d (fun l => Rsqr (e l j))) = INR d.
Proof.
  intros H. rewrite sumn_swap. rewrite (sumn_ext d _ (fun _ => 1)).
  - rewrite sumn_const. ring.
  - intros l Hl. specialize (H l l Hl Hl). rewrite Nat.eqb_refl in H. exact H.
Qed.

Lemma column_bound n d e j : ort n d e -> (j < n)%nat -> sumn d (fun l => Rsqr (e l j)) <= 1.
Proof.
  intros H Hj. apply ort_orth in H. pose proof (bessel n (fun _ => 1) (fun _ _ => Rlt_0_1) d e (unit_at j) H) as B.
  rewrite <- ip_inn, (ip_unit n (unit_at j) j Hj) in B. unfold unit_at at 2 in B. rewrite Nat.eqb_refl in B.
  erewrite sumn_ext; [exact B|]. intros l Hl. cbv beta. rewrite <- ip_inn, ip_unit by auto. reflexivity.
Qed.

Lemma ort_count n d e : ort n d e -> (d <= n)%nat.
Proof.
  intros H. apply INR_le. rewrite <- (family_sum n d e H). replace (INR n) with (sumn n (fun _ => 1)) by (rewrite sumn_const; ring).
  apply sumn_le. intros j Hj. apply column_bound with (1 := H); auto.
Qed.

Lemma exists_small n f : sumn n f < INR n -> exists j, (j < n)%nat /\ f j < 1.
Proof.
  induction n as [|n IH]; intros H.
  - cbn in H. lra.
  - rewrite sumn_S, S_INR in H. destruct (Rlt_dec (f n) 1) as [Hl|Hl].
    + exists n. split; [lia|auto].
    + destruct IH as (j & Hj & Hf); [lra|]. exists j. split; [lia|auto].
Qed.

Lemma complement n d e : ort n d e -> (d < n)%nat -> exists w, ip n w w = 1 /\ forall l, (l < d)%nat -> ip n w (e l) = 0.
Proof.
  intros H Hd. destruct (exists_small n (fun j => sumn d (fun l => Rsqr (e l j)))) as (j & Hj & Hs).
  { rewrite (family_sum n d e H). apply lt_INR. exact Hd. }
  cbv beta in Hs. pose (z := fun a => unit_at j a - sumn d (fun l => e l j * e l a)).
  pose proof (proj1 (ort_orth n d e) H) as Ho.
  assert (Hz : ip n z z = 1 - sumn d (fun l => Rsqr (e l j))).
  { rewrite ip_inn. unfold z. rewrite (pythagoras n (fun _ => 1) d e (unit_at j) (fun l => e l j) Ho).
    rewrite <- ip_inn, (ip_unit n (unit_at j) j Hj). unfold unit_at at 1. rewrite Nat.eqb_refl.
    rewrite (sumn_zero d (fun i => Rsqr (e i j - _))).
    - rewrite Rplus_0_r. f_equal. apply sumn_ext. intros l Hl. rewrite <- ip_inn, ip_unit by auto. reflexivity.
    - intros l Hl. rewrite <- ip_inn, ip_unit by auto. rewrite Rminus_eq_0. apply Rsqr_0. }
  assert (Hzo : forall l, (l < d)%nat -> ip n z (e l) = 0).
  { intros l Hl. rewrite ip_inn. unfold z. rewrite inn_comb. rewrite <- ip_inn, ip_unit by auto.
    rewrite (sumn_single d _ l Hl).
    - specialize (H l l Hl Hl). rewrite Nat.eqb_refl in H. rewrite <- ip_inn, H. ring.
    - intros a Ha Hne. rewrite <- ip_inn, (H a l Ha Hl). destruct (Nat.eqb_spec a l); [contradiction|ring]. }
  assert (Pz : 0 < ip n z z) by lra. set (r := sqrt (ip n z z)). assert (Pr : 0 < r) by (apply sqrt_lt_R0; auto).
  assert (Err : r * r = ip n z z) by (apply sqrt_sqrt; lra).
  exists (fun a => / r * z a). split.
  - rewrite ip_scal, ip_sym, ip_scal, <- Err. field. lra.
  - intros l Hl. rewrite ip_scal, Hzo by auto. ring.
Qed.

(** * All triples *)
Definition addf {T} (k : nat) (f : nat -> T) (x : T) : nat -> T := fun l => if Nat.eqb l k then x else f l.
Lemma addf_old {T} k (f : nat -> T) x l : (l < k)%nat -> addf k f x l = f l.
Proof. intros H. unfold addf. destruct (Nat.eqb_spec l k); [lia|reflexivity]. Qed.
Lemma addf_new {T} k (f : nat -> T) x : addf k f x k = x.
Proof. unfold addf. rewrite Nat.eqb_refl. reflexivity. Qed.

Lemma ort_add n k e w : ort n k e -> ip n w w = 1 -> (forall l, (l < k)%nat -> ip n w (e l) = 0) -> ort n (S k) (addf k e w).
Proof.
  intros H Hw Ho i j Hi Hj. unfold addf. destruct (Nat.eqb_spec i k) as [->|Ni], (Nat.eqb_spec j k) as [->|Nj].
  - rewrite Nat.eqb_refl. exact Hw.
  - destruct (Nat.eqb_spec k j); [lia|]. apply Ho. lia.
  - destruct (Nat.eqb_spec i k); [lia|]. rewrite ip_sym. apply Ho. lia.
  - apply H; lia.
Qed.

Section Svd.
Variables (m n : nat) (A : nat -> nat -> R).

Definition residual (k : nat) (u : nat -> nat -> R) (s : nat -> R) (v : nat -> nat -> R) (i j : nat) : R :=
  A i j - sumn k (fun l => u l i * s l * v l j).

Definition partial (k : nat) (u : nat -> nat -> R) (s : nat -> R) (v : nat -> nat -> R) : Prop :=
  let R := residual k u s v in
  ort m k u /\ ort n k v /\
  (forall l, (l < k)%nat -> forall i, (i < m)%nat -> sumn n (fun j => R i j * v l j) = 0) /\
  (forall l, (l < k)%nat -> forall j, (j < n)%nat -> sumn m (fun i => R i j * u l i) = 0) /\
  (forall l, (l < k)%nat -> 0 <= s l) /\
  (forall l, (S l < k)%nat -> s (S l) <= s l) /\
  (forall l w, (l < k)%nat -> ip m (act n R w) (act n R w) <= s l * s l * ip n w w).

Lemma residual_add k u s v u' s' v' i j :
  residual (S k) (addf k u u') (addf k s s') (addf k v v') i j = residual k u s v i j - u' i * s' * v' j.
Proof.
  unfold residual. rewrite sumn_S, !addf_new. rewrite (sumn_ext k _ (fun l => u l i * s l * v l j)); [ring|].
  intros l Hl. rewrite !addf_old by auto. reflexivity.
Qed.

(** One more triple. *)
Lemma add_triple k u s v u' s' v' : partial k u s v ->
  ip m u' u' = 1 -> ip n v' v' = 1 -> (forall l, (l < k)%nat -> ip m u' (u l) = 0) -> (forall l, (l < k)%nat -> ip n v' (v l) = 0) ->
  0 <= s' -> (forall l, (l < k)%nat -> s' <= s l) ->
  (forall i, (i < m)%nat -> sumn n (fun j => residual k u s v i j * v' j) = s' * u' i) ->
  (forall j, (j < n)%nat -> sumn m (fun i => residual k u s v i j * u' i) = s' * v' j) ->
  (forall w, ip m (act n (residual k u s v) w) (act n (residual k u s v) w) <= s' * s' * ip n w w) ->
  partial (S k) (addf k u u') (addf k s s') (addf k v v').
Proof.
  intros (H1 & H2 & H3 & H4 & H5 & H6 & H7) Nu Nv Ou Ov Ps Hs Hr Hl Hn. set (R := residual k u s v) in *.
  pose (R' := residual (S k) (addf k u u') (addf k s s') (addf k v v')).
  assert (ER : forall i j, R' i j = R i j - u' i * s' * v' j) by (intros; apply residual_add).
  assert (Hact : forall w i, act n R' w i = act n R w i + (- s' * ip n v' w) * u' i).
  { intros w i. unfold act, ip. rewrite <- sumn_scal, <- sumn_scal_r, <- sumn_plus. apply sumn_ext. intros j _. rewrite ER. ring. }
  assert (Hin : forall w, ip m (act n R w) u' = s' * ip n v' w).
  { intros w. unfold ip, act. rewrite <- sumn_scal.
    rewrite (sumn_ext m _ (fun i => sumn n (fun j => R i j * w j * u' i))) by (intros; rewrite <- sumn_scal_r; reflexivity).
    rewrite sumn_swap. apply sumn_ext. intros j Hj. rewrite <- (Rmult_assoc s'), <- Hl by auto. rewrite <- sumn_scal_r. apply sumn_ext. intros; ring. }
  assert (Hle : forall w, ip m (act n R' w) (act n R' w) <= ip m (act n R w) (act n R w)).
  { intros w. rewrite (ip_ext m (act n R' w) (act n R' w) (fun i => act n R w i + (- s' * ip n v' w) * u' i) (fun i => act n R w i + (- s' * ip n v' w) * u' i)) by (intros; apply Hact).
    rewrite ip_line, Hin, Nu. assert (0 <= Rsqr (s' * ip n v' w)) by apply Rle_0_sqr. unfold Rsqr in H. nra. }
  split; [apply ort_add; auto|]. split; [apply ort_add; auto|]. fold R'. split; [|split; [|split; [|split]]].
  - intros l Hlk i Hi. rewrite (sumn_ext n _ (fun j => R i j * addf k v v' l j - u' i * s' * (v' j * addf k v v' l j))) by (intros; rewrite ER; ring).
    rewrite sumn_minus, sumn_scal. fold (ip n v' (addf k v v' l)). destruct (Nat.eq_dec l k) as [->|].
    + rewrite addf_new, Nv, Hr by auto. ring.
    + rewrite addf_old by lia. rewrite H3, Ov by (auto; lia). ring.
  - intros l Hlk j Hj. rewrite (sumn_ext m _ (fun i => R i j * addf k u u' l i - s' * v' j * (u' i * addf k u u' l i))) by (intros; rewrite ER; ring).
    rewrite sumn_minus, sumn_scal. fold (ip m u' (addf k u u' l)). destruct (Nat.eq_dec l k) as [->|].
    + rewrite addf_new, Nu, Hl by auto. ring.
    + rewrite addf_old by lia. rewrite H4, Ou by (auto; lia). ring.
  - intros l Hlk. destruct (Nat.eq_dec l k) as [->|]; [rewrite addf_new; auto|rewrite addf_old by lia; apply H5; lia].
  - intros l Hlk. destruct (Nat.eq_dec (S l) k) as [E|].
    + rewrite (addf_old k s s' l) by lia. rewrite E, addf_new. apply Hs. lia.
    + rewrite !addf_old by lia. apply H6. lia.
  - intros l w Hlk. eapply Rle_trans; [apply Hle|]. destruct (Nat.eq_dec l k) as [->|]; [rewrite addf_new; apply Hn|rewrite addf_old by lia; apply H7; lia].
Qed.

(** A residual that does not vanish gives a further triple. *)
Lemma next_nonzero k u s v : partial k u s v -> 0 < nrm2 m n (residual k u s v) ->
  exists u' s' v', partial (S k) (addf k u u') (addf k s s') (addf k v v').
Proof.
  intros Hp Hne. destruct (top m n _ Hne) as (s' & u' & v' & Ps & Nu & Nv & Hr & Hl & Hn). exists u', s', v'.
  pose proof Hp as (H1 & H2 & H3 & H4 & H5 & H6 & H7). set (R := residual k u s v) in *.
  apply add_triple; auto; try lra.
  - intros l Hlk. apply Rmult_eq_reg_l with s'; [|lra]. rewrite Rmult_0_r. unfold ip. rewrite <- sumn_scal.
    rewrite (sumn_ext m _ (fun i => sumn n (fun j => R i j * v' j * u l i))).
    + rewrite sumn_swap. apply sumn_zero. intros j Hj. rewrite (sumn_ext m _ (fun i => R i j * u l i * v' j)) by (intros; ring). rewrite sumn_scal_r, H4 by auto. ring.
    + intros i Hi. rewrite sumn_scal_r. fold R in Hr. rewrite Hr by auto. ring.
  - intros l Hlk. apply Rmult_eq_reg_l with s'; [|lra]. rewrite Rmult_0_r. unfold ip. rewrite <- sumn_scal.
    rewrite (sumn_ext n _ (fun j => sumn m (fun i => R i j * u' i * v l j))).
    + rewrite sumn_swap. apply sumn_zero. intros i Hi. rewrite (sumn_ext n _ (fun j => R i j * v l j * u' i)) by (intros; ring). rewrite sumn_scal_r, H3 by auto. ring.
    + intros j Hj. rewrite sumn_scal_r. fold R in Hl. rewrite Hl by auto. ring.
  - intros l Hlk. pose proof (H7 l v' Hlk) as B. fold R in Hr.
    rewrite (ip_ext m (act n R v') (act n R v') (fun i => s' * u' i) (fun i => s' * u' i)) in B by (intros; apply Hr; auto).
    rewrite ip_scal, ip_sym, ip_scal, Nu, Nv in B. specialize (H5 l Hlk). nra.
Qed.

Lemma nrm2_pos (R : nat -> nat -> R) : 0 <= nrm2 m n R.
Proof. apply sumn_nonneg. intros i _. apply sumn_nonneg. intros; nra. Qed.
Lemma nrm2_zero (R : nat -> nat -> R) : nrm2 m n R = 0 -> forall i j, (i < m)%nat -> (j < n)%nat -> R i j = 0.
Proof.
  intros H i j Hi Hj.
  assert (H1 : sumn n (fun j => R i j * R i j) = 0) by (refine (sumn_zero_inv m _ _ H i Hi); intros; apply sumn_nonneg; intros; nra).
  assert (H2 : R i j * R i j = 0) by (refine (sumn_zero_inv n _ _ H1 j Hj); intros; nra). nra.
Qed.

Lemma next k u s v : partial k u s v -> (k < m)%nat -> (k < n)%nat ->
  exists u' s' v', partial (S k) (addf k u u') (addf k s s') (addf k v v').
Proof.
  intros Hp Hm Hn. destruct (Req_dec (nrm2 m n (residual k u s v)) 0) as [E|E].
  - pose proof Hp as (H1 & H2 & H3 & H4 & H5 & H6 & H7). destruct (complement m k u H1 Hm) as (u' & Nu & Ou). destruct (complement n k v H2 Hn) as (v' & Nv & Ov).
    pose proof (nrm2_zero _ E) as Z. exists u', 0, v'. apply add_triple; auto; try lra.
    + intros i Hi. rewrite sumn_zero; [ring|]. intros j Hj. rewrite Z by auto. ring.
    + intros j Hj. rewrite sumn_zero; [ring|]. intros i Hi. rewrite Z by auto. ring.
    + intros w. rewrite (ip_ext m _ _ (fun _ => 0) (fun _ => 0)).
      * unfold ip at 1. rewrite sumn_zero by (intros; ring). lra.
      * intros i Hi. apply sumn_zero. intros j Hj. rewrite Z by auto. ring.
      * intros i Hi. apply sumn_zero. intros j Hj. rewrite Z by auto. ring.
  - apply next_nonzero; auto. pose proof (nrm2_pos (residual k u s v)). lra.
Qed.

Lemma all_triples k : (k <= m)%nat -> (k <= n)%nat -> exists u s v, partial k u s v.
Proof.
  induction k as [|k IH]; intros Hm Hn.
  - exists (fun _ _ => 0), (fun _ => 0), (fun _ _ => 0).
    split; [intros ? ? ?; lia|]. split; [intros ? ? ?; lia|]. split; [intros; lia|]. split; [intros; lia|]. split; [intros; lia|]. split; intros; lia.
  - destruct IH as (u & s & v & Hp); try lia. destruct (next k u s v Hp) as (u' & s' & v' & H); try lia. eauto.
Qed.

Theorem svd_exists : exists u s v, let k := Nat.min m n in ort m k u /\ ort n k v /\
  (forall l, (l < k)%nat -> 0 <= s l) /\ (forall l, (S l < k)%nat -> s (S l) <= s l) /\
  forall i j, (i < m)%nat -> (j < n)%nat -> A i j = sumn k (fun l => u l i * s l * v l j).
Proof.
  destruct (all_triples (Nat.min m n)) as (u & s & v & Hp); try lia. exists u, s, v. cbv zeta.
  pose proof Hp as (H1 & H2 & _ & _ & H5 & H6 & _). repeat (split; [assumption|]).
  assert (E : nrm2 m n (residual (Nat.min m n) u s v) = 0).
  { destruct (Req_dec (nrm2 m n (residual (Nat.min m n) u s v)) 0) as [E|E]; auto. exfalso.
    destruct (next_nonzero _ u s v Hp) as (u' & s' & v' & (Q1 & Q2 & _)). { pose proof (nrm2_pos (residual (Nat.min m n) u s v)). lra. }
    apply ort_count in Q1, Q2. lia. }
  intros i j Hi Hj. pose proof (nrm2_zero _ E i j Hi Hj) as Z. unfold residual in Z. lra.
Qed.
End Svd.
