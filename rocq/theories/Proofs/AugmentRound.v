(** Errors of augmentations in rounded arithmetic. *)
From Coq Require Import Reals ZArith Arith Bool Lra Lia Psatz String.
From Coquelicot Require Import Coquelicot.
From Coq Require Import List.
From Verif.Model Require Import Base Util Num Poly PolyIEEE FT FTIEEE SVE Basis Augment AugmentIEEE.
From Verif.Spec Require Import SUtil SFT SKernelIEEE SAugment SAugmentIEEE.
From Verif.Proofs Require Import DLRRound AugmentFacts.
Import ListNotations.
Open Scope R_scope.
Notation length := List.length.

Section Aug.
Context (u eta : R) (rd : R -> R) (Hrd : rounding u eta rd) (Hu : 0 < u <= / 10000) (He : 0 <= eta).

Definition rel (c x' x : R) : Prop := Rabs (x' - x) <= c * u * Rabs x.

Lemma rel_refl x : rel 0 x x.
Proof. unfold rel. replace (x - x) with 0 by ring. rewrite Rabs_R0. lra. Qed.
Lemma rel_le c d x' x : rel c x' x -> c <= d -> rel d x' x.
Proof. unfold rel. intros H L. eapply Rle_trans; [exact H|]. apply Rmult_le_compat_r; [apply Rabs_pos|]. apply Rmult_le_compat_r; lra. Qed.
Lemma rel_rd c x' x : rel c x' x -> 0 <= c <= 20 -> 1100 * eta <= u * Rabs x -> rel (c + 201 / 200) (rd x') x.
Proof.
  unfold rel. intros H Hc E. eapply Rle_trans; [apply (rd_after u eta rd Hrd Hu He x x' (c * u)); [exact H| |exact E]|].
  - split; [apply Rmult_le_pos; lra|]. apply Rle_trans with (20 * / 10000); [|lra]. apply Rmult_le_compat; lra.
  - apply Rmult_le_compat_r; [apply Rabs_pos|]. assert (u * (c * u) <= u * (20 * / 10000)) by (apply Rmult_le_compat_l; [lra|apply Rmult_le_compat; lra]). lra.
Qed.
Lemma rel_mul c d x x' y y' : rel c x' x -> rel d y' y -> 0 <= c <= 20 -> 0 <= d <= 20 -> rel (c + d + / 20) (x' * y') (x * y).
Proof.
  unfold rel. intros H1 H2 Hc Hd. eapply Rle_trans; [apply (mul_rel _ _ _ _ (c * u) (d * u)); [exact H1|exact H2|apply Rmult_le_pos; lra|apply Rmult_le_pos; lra]|].
  apply Rmult_le_compat_r; [apply Rabs_pos|]. assert (A : c * d <= 20 * 20) by (apply Rmult_le_compat; lra).
  assert (0 <= c * d) by (apply Rmult_le_pos; lra). assert (B : u * (c * d * u) <= u * (20 * 20 * / 10000)) by (apply Rmult_le_compat_l; [lra|apply Rmult_le_compat; lra]). lra.
Qed.
Lemma rel_inv c x' x : rel c x' x -> 0 <= c <= 20 -> x <> 0 -> rel (c + / 10) (/ x') (/ x).
Proof.
  unfold rel. intros H Hc Hx. pose proof (Rabs_pos_lt x Hx) as Px.
  assert (cu : c * u <= 20 * / 10000) by (apply Rmult_le_compat; lra).
  assert (L : (1 - c * u) * Rabs x <= Rabs x'). { pose proof (Rabs_triang_inv x (x - x')) as Q. replace (x - (x - x')) with x' in Q by ring. rewrite (Rabs_minus_sym x x') in Q. lra. }
  assert (Px' : 0 < Rabs x') by nra. assert (x' <> 0) by (intros ->; rewrite Rabs_R0 in Px'; lra).
  replace (/ x' - / x) with ((x - x') * / x' * / x) by (field; auto). rewrite !Rabs_mult, Rabs_minus_sym. apply Rmult_le_compat_r; [apply Rabs_pos|].
  rewrite Rabs_inv by assumption. apply (Rmult_le_reg_r (Rabs x')); [exact Px'|]. rewrite Rmult_assoc, Rinv_l, Rmult_1_r by lra.
  eapply Rle_trans; [exact H|]. apply Rle_trans with ((c + / 10) * u * ((1 - c * u) * Rabs x)); [|apply Rmult_le_compat_l; [apply Rmult_le_pos; lra|exact L]].
  replace ((c + / 10) * u * ((1 - c * u) * Rabs x)) with ((c + / 10) * (1 - c * u) * (u * Rabs x)) by ring. replace (c * u * Rabs x) with (c * (u * Rabs x)) by ring.
  apply Rmult_le_compat_r; [apply Rmult_le_pos; lra|]. assert ((c + / 10) * (1 - 20 * / 10000) <= (c + / 10) * (1 - c * u)) by (apply Rmult_le_compat_l; lra). lra.
Qed.
Lemma rel_pos c x' x : rel c x' x -> 0 <= c <= 20 -> 0 < x -> 0 < x'.
Proof.
  unfold rel. intros H Hc Hx. rewrite (Rabs_pos_eq x) in H by lra. assert (cu : c * u <= 20 * / 10000) by (apply Rmult_le_compat; lra).
  apply Rabs_le_between in H. assert (c * u * x <= 20 * / 10000 * x) by (apply Rmult_le_compat_r; lra). lra.
Qed.
Lemma rel_sqrt c x' x : rel c x' x -> 0 <= c <= 20 -> 0 < x -> rel c (sqrt x') (sqrt x).
Proof.
  intros H Hc Hx. pose proof (rel_pos _ _ _ H Hc Hx) as Hx'. unfold rel in *. rewrite (Rabs_pos_eq x) in H by lra.
  pose proof (sqrt_lt_R0 _ Hx) as S. pose proof (sqrt_lt_R0 _ Hx') as S'. rewrite (Rabs_pos_eq (sqrt x)) by lra.
  apply (Rmult_le_reg_r (sqrt x)); [exact S|]. rewrite Rmult_assoc, sqrt_sqrt by lra. eapply Rle_trans; [|exact H].
  replace (x' - x) with ((sqrt x' - sqrt x) * (sqrt x' + sqrt x)); [|replace ((sqrt x' - sqrt x) * (sqrt x' + sqrt x)) with (sqrt x' * sqrt x' - sqrt x * sqrt x) by ring; rewrite !sqrt_sqrt by lra; reflexivity].
  rewrite Rabs_mult. apply Rmult_le_compat_l; [apply Rabs_pos|]. rewrite Rabs_pos_eq by lra. lra.
Qed.

Section Beta.
Context (beta : R) (HF : fair_beta u eta beta).
Let s := sqrt (3 / beta).

Lemma beta_pos : 0 < beta.
Proof. apply HF. Qed.
Lemma fair_1 x : 1 <= x -> 10000 * eta <= u * x.
Proof. intros H. destruct HF as (_ & A & _). eapply Rle_trans; [exact A|]. nra. Qed.
Lemma fair_b x : beta <= x -> 10000 * eta <= u * x.
Proof. intros H. destruct HF as (_ & _ & A & _). eapply Rle_trans; [exact A|]. apply Rmult_le_compat_l; lra. Qed.
Lemma fair_bb x : / (beta * beta) <= x -> 10000 * eta <= u * x.
Proof.
  intros H. destruct HF as (P & _ & _ & A). apply Rle_trans with (u * / (beta * beta)); [|apply Rmult_le_compat_l; lra].
  assert (0 < beta * beta) by nra. apply (Rmult_le_reg_r (beta * beta)); [assumption|]. replace (u * / (beta * beta) * (beta * beta)) with u by (field; lra). lra.
Qed.
Lemma fair_ib x : / beta <= x -> 10000 * eta <= u * x.
Proof.
  intros H. pose proof beta_pos as P. destruct (Rle_dec 1 beta) as [L|L].
  - apply fair_bb. eapply Rle_trans; [|exact H]. apply Rinv_le_contravar; nra.
  - apply fair_1. eapply Rle_trans; [|exact H]. rewrite <- Rinv_1. apply Rinv_le_contravar; lra.
Qed.
Lemma ib_pos : 0 < / beta.
Proof. apply Rinv_0_lt_compat, beta_pos. Qed.
Lemma s_pos : 0 < s.
Proof. apply sqrt_lt_R0. apply Rdiv_lt_0_compat; [lra|exact beta_pos]. Qed.
Lemma s_lo : (beta <= 1 -> 1 <= s) /\ (1 <= beta -> / beta <= s).
Proof.
  pose proof beta_pos as P. pose proof ib_pos as Q. assert (S2 : s * s = 3 * / beta) by (apply sqrt_sqrt; apply Rlt_le, Rdiv_lt_0_compat; lra). pose proof s_pos as Sp.
  split; intros L.
  - assert (1 <= / beta) by (rewrite <- Rinv_1; apply Rinv_le_contravar; lra). nra.
  - assert (/ beta <= 1) by (rewrite <- Rinv_1; apply Rinv_le_contravar; lra). nra.
Qed.
Lemma fair_s : 10000 * eta <= u * s.
Proof. destruct s_lo as [A B]. destruct (Rle_dec beta 1); [apply fair_1; auto|apply fair_ib, B; lra]. Qed.
Lemma sb_lo : (1 <= beta -> 1 <= s * beta) /\ (beta <= 1 -> beta <= s * beta).
Proof.
  pose proof beta_pos. destruct s_lo as [A B]. split; intros L.
  - specialize (B L). apply Rle_trans with (/ beta * beta); [rewrite Rinv_l; lra|apply Rmult_le_compat_r; lra].
  - specialize (A L). nra.
Qed.

Lemma near_const : rel 3 (const_value_rd rd beta) (1 / sqrt beta).
Proof.
  pose proof beta_pos as P. pose proof (sqrt_lt_R0 _ P) as S. unfold const_value_rd, Rdiv. rewrite !Rmult_1_l.
  assert (S2 : sqrt beta * sqrt beta = beta) by (apply sqrt_sqrt; lra).
  assert (Es : 10000 * eta <= u * sqrt beta). { destruct (Rle_dec 1 beta); [apply fair_1; nra|apply fair_b; nra]. }
  assert (Ei : 10000 * eta <= u * / sqrt beta).
  { destruct (Rle_dec 1 beta); [apply fair_ib, Rinv_le_contravar; nra|apply fair_1; rewrite <- Rinv_1; apply Rinv_le_contravar; nra]. }
  assert (H1 : rel (0 + 201 / 200) (rd (sqrt beta)) (sqrt beta)) by (apply rel_rd; [apply rel_refl|lra|rewrite Rabs_pos_eq; lra]).
  assert (H2 := rel_inv _ _ _ H1 ltac:(lra) ltac:(lra)).
  pose proof (Rinv_0_lt_compat _ S). eapply rel_le; [apply rel_rd; [exact H2|lra|rewrite Rabs_pos_eq; lra]|lra].
Qed.
Lemma near_norm : rel (202 / 100) (norm_rd rd beta) s.
Proof.
  pose proof beta_pos as P. pose proof ib_pos. pose proof s_pos. unfold norm_rd.
  assert (H1 : rel (0 + 201 / 200) (rd (3 / beta)) (3 / beta)).
  { apply rel_rd; [apply rel_refl|lra|]. unfold Rdiv. rewrite Rabs_pos_eq by lra. pose proof (fair_ib (3 * / beta) ltac:(lra)). lra. }
  assert (H2 := rel_sqrt _ _ _ H1 ltac:(lra) ltac:(apply Rdiv_lt_0_compat; lra)). fold s in H2.
  eapply rel_le; [apply rel_rd; [exact H2|lra|rewrite Rabs_pos_eq by lra; pose proof fair_s; lra]|lra].
Qed.
Lemma near_2norm : rel (308 / 100) (rd (norm_rd rd beta * 2)) (s * 2).
Proof.
  pose proof s_pos. assert (H2 := rel_mul _ _ _ _ _ _ near_norm (rel_refl 2) ltac:(lra) ltac:(lra)).
  eapply rel_le; [apply rel_rd; [exact H2|lra|rewrite Rabs_pos_eq by lra; pose proof fair_s; lra]|lra].
Qed.
Lemma near_slope : rel 5 (slope_rd rd beta) (s * 2 / beta).
Proof.
  pose proof s_pos. pose proof beta_pos. pose proof ib_pos. unfold slope_rd, Rdiv.
  assert (H2 := rel_mul _ _ _ _ _ _ near_2norm (rel_refl (/ beta)) ltac:(lra) ltac:(lra)).
  eapply rel_le; [apply rel_rd; [exact H2|lra|]|lra]. rewrite Rabs_pos_eq by (apply Rmult_le_pos; lra). destruct s_lo as [A B]. assert (0 <= s * / beta) by (apply Rmult_le_pos; lra).
  assert (10000 * eta <= u * (s * 2 * / beta)); [|lra]. destruct (Rle_dec beta 1) as [L|L].
  - apply fair_1. specialize (A L). assert (1 <= / beta) by (rewrite <- Rinv_1; apply Rinv_le_contravar; lra). assert (1 * 1 <= s * / beta) by (apply Rmult_le_compat; lra). lra.
  - apply fair_bb. rewrite Rinv_mult. assert (/ beta * / beta <= s * / beta) by (apply Rmult_le_compat_r; [lra|apply B; lra]). lra.
Qed.

Lemma abs_rd x x' d m : Rabs (x' - x) <= d -> Rabs x <= m -> Rabs (rd x' - x) <= d + u * (m + d) + eta.
Proof.
  intros H M. pose proof (rde u eta rd Hrd x') as Q. assert (B : Rabs x' <= m + d). { replace x' with (x + (x' - x)) by ring. eapply Rle_trans; [apply Rabs_triang|]. lra. }
  replace (rd x' - x) with ((rd x' - x') + (x' - x)) by ring. eapply Rle_trans; [apply Rabs_triang|]. assert (u * Rabs x' <= u * (m + d)) by (apply Rmult_le_compat_l; lra). lra.
Qed.
Lemma near_linear t : 0 <= t <= beta -> Rabs (linear_value_rd rd beta t - lin_fun beta t) <= 9 * u * s.
Proof.
  intros Ht. pose proof s_pos as S. pose proof beta_pos as P. pose proof ib_pos as Q. unfold linear_value_rd, lin_fun. cbv zeta. fold s.
  assert (H1 : rel (0 + 201 / 200) (rd (2 / beta)) (2 / beta)).
  { apply rel_rd; [apply rel_refl|lra|]. unfold Rdiv. rewrite Rabs_pos_eq by lra. pose proof (fair_ib (2 * / beta) ltac:(lra)). lra. }
  assert (E1 : 10000 * eta <= u) by apply HF. assert (uu : 0 <= u * u <= / 10000 * u) by nra.
  assert (T : 0 <= t * / beta <= 1). { split; [apply Rmult_le_pos; lra|]. apply Rle_trans with (beta * / beta); [apply Rmult_le_compat_r; lra|rewrite Rinv_r; lra]. }
  set (y := 2 / beta * t). assert (Y : 0 <= y <= 2) by (unfold y, Rdiv; lra).
  assert (H2 : Rabs (rd (2 / beta) * t - y) <= 201 / 100 * u).
  { replace (rd (2 / beta) * t - y) with ((rd (2 / beta) - 2 / beta) * t) by (unfold y; ring). unfold rel in H1. rewrite (Rabs_pos_eq (2 / beta)) in H1 by (unfold Rdiv; lra).
    rewrite Rabs_mult, (Rabs_pos_eq t) by lra. apply Rle_trans with ((0 + 201 / 200) * u * (2 / beta) * t); [apply Rmult_le_compat_r; lra|].
    replace ((0 + 201 / 200) * u * (2 / beta) * t) with (201 / 100 * u * (t * / beta)) by (field; lra). rewrite <- (Rmult_1_r (201 / 100 * u)) at 2. apply Rmult_le_compat_l; lra. }
  assert (H3 := abs_rd _ _ _ 2 H2 ltac:(rewrite Rabs_pos_eq; lra)).
  assert (H4 : Rabs (rd (rd (2 / beta) * t) - 1 - (y - 1)) <= 402 / 100 * u). { match goal with |- Rabs ?z <= _ => replace z with (rd (rd (2 / beta) * t) - y) by ring end. lra. }
  assert (H5 := abs_rd _ _ _ 1 H4 ltac:(apply Rabs_le; lra)). set (x' := rd (rd (rd (2 / beta) * t) - 1)) in *. set (x := y - 1) in *.
  assert (X : Rabs x <= 1) by (apply Rabs_le; unfold x; lra). assert (H6 : Rabs (x' - x) <= 504 / 100 * u) by lra.
  pose proof near_norm as N. unfold rel in N. rewrite (Rabs_pos_eq s) in N by lra. set (n := norm_rd rd beta) in *.
  assert (X' : Rabs x' <= 1 + / 1000). { replace x' with (x + (x' - x)) by ring. eapply Rle_trans; [apply Rabs_triang|]. lra. }
  assert (H7 : Rabs (n * x' - s * x) <= 708 / 100 * (u * s)).
  { replace (n * x' - s * x) with ((n - s) * x' + s * (x' - x)) by ring. eapply Rle_trans; [apply Rabs_triang|]. rewrite !Rabs_mult, (Rabs_pos_eq s) by lra.
    assert (Rabs (n - s) * Rabs x' <= 202 / 100 * u * s * (1 + / 1000)) by (apply Rmult_le_compat; try apply Rabs_pos; assumption).
    assert (s * Rabs (x' - x) <= s * (504 / 100 * u)) by (apply Rmult_le_compat_l; lra). assert (0 <= u * s) by (apply Rmult_le_pos; lra). lra. }
  assert (H8 := abs_rd _ _ _ s H7 ltac:(rewrite Rabs_mult, (Rabs_pos_eq s) by lra; rewrite <- (Rmult_1_r s) at 2; apply Rmult_le_compat_l; lra)).
  pose proof fair_s. assert (0 <= u * s) by (apply Rmult_le_pos; lra). assert (u * (u * s) <= / 10000 * (u * s)) by (apply Rmult_le_compat_r; lra). lra.
Qed.

Lemma near_hat pi k : Rabs (pi - PI) <= u * PI -> k <> 0%Z -> fair_freq u eta beta k ->
  rel 10 (snd (linear_hat_rd rd pi beta k)) (- (s * 2) * / (PI / beta * IZR k)).
Proof.
  intros Hpi Hk [F1 F2]. pose proof s_pos as S. pose proof beta_pos as P. pose proof ib_pos as Q. unfold linear_hat_rd. cbv zeta. cbn [snd]. rewrite (proj2 (Z.eqb_neq k 0) Hk).
  assert (Pp : 3 < PI) by (pose proof PI2_3_2; unfold PI2 in *; lra). pose proof PI_4 as P4.
  assert (n1 : 1 <= Rabs (IZR k)) by (rewrite <- abs_IZR; apply (IZR_le 1); lia). pose proof (not_0_IZR _ Hk) as K0.
  assert (Api : Rabs (PI * / beta) = PI * / beta) by (apply Rabs_pos_eq, Rmult_le_pos; lra). assert (I3 : 3 * / beta <= PI * / beta) by (apply Rmult_le_compat_r; lra).
  assert (h0 : rel 1 pi PI) by (unfold rel; rewrite (Rabs_pos_eq PI); lra).
  assert (h1 := rel_mul _ _ _ _ _ _ h0 (rel_refl (/ beta)) ltac:(lra) ltac:(lra)).
  assert (h2 : rel (206 / 100) (rd (pi / beta)) (PI / beta)). { eapply rel_le; [apply rel_rd; [exact h1|lra|]|lra]. change (PI / beta) with (PI * / beta). rewrite Api. pose proof (fair_ib (PI * / beta) ltac:(lra)). lra. }
  assert (h3 : rel (0 + 201 / 200) (rd (IZR k)) (IZR k)). { apply rel_rd; [apply rel_refl|lra|]. pose proof (fair_1 _ n1). lra. }
  assert (h4 := rel_mul _ _ _ _ _ _ h2 h3 ltac:(lra) ltac:(lra)).
  assert (L4 : PI * / beta <= Rabs (PI / beta * IZR k)). { rewrite Rabs_mult. unfold Rdiv. rewrite Api. rewrite <- (Rmult_1_r (PI * / beta)) at 1. apply Rmult_le_compat_l; lra. }
  assert (h5 : rel (413 / 100) (rd (rd (pi / beta) * rd (IZR k))) (PI / beta * IZR k)). { eapply rel_le; [apply rel_rd; [exact h4|lra|]|lra]. pose proof (fair_ib (Rabs (PI / beta * IZR k)) ltac:(lra)). lra. }
  assert (nz : PI / beta * IZR k <> 0). { intros Z. rewrite Z, Rabs_R0 in L4. lra. }
  assert (h6 := rel_inv _ _ _ h5 ltac:(lra) nz).
  assert (Ei : / (PI / beta * IZR k) = beta * / PI * / IZR k) by (field; repeat split; lra).
  assert (Ai : Rabs (/ (PI / beta * IZR k)) = beta * / PI * / Rabs (IZR k)).
  { rewrite Ei, !Rabs_mult, (Rabs_inv (IZR k)). rewrite (Rabs_pos_eq beta), (Rabs_pos_eq (/ PI)) by (try (apply Rlt_le, Rinv_0_lt_compat); lra). reflexivity. }
  assert (Ip : / 4 <= / PI) by (apply Rinv_le_contravar; lra).
  assert (Pk : 0 < / Rabs (IZR k)) by (apply Rinv_0_lt_compat; lra).
  assert (G : forall c, 0 <= c -> 10000 * eta * Rabs (IZR k) <= u * c -> 10000 * eta <= u * (c * / Rabs (IZR k))).
  { intros c Hc Hl. apply (Rmult_le_reg_r (Rabs (IZR k))); [lra|]. replace (u * (c * / Rabs (IZR k)) * Rabs (IZR k)) with (u * c) by (field; lra). exact Hl. }
  assert (h7 : rel (524 / 100) (rd (/ rd (rd (pi / beta) * rd (IZR k)))) (/ (PI / beta * IZR k))).
  { eapply rel_le; [apply rel_rd; [exact h6|lra|]|lra]. rewrite Ai. pose proof (G beta ltac:(lra) F2) as G1.
    assert (u * (beta * / Rabs (IZR k)) * / 4 <= u * (beta * / Rabs (IZR k)) * / PI) by (apply Rmult_le_compat_l; [repeat apply Rmult_le_pos; lra|lra]). lra. }
  assert (N2 : rel (308 / 100) (- rd (norm_rd rd beta * 2)) (- (s * 2))).
  { pose proof near_2norm as N. unfold rel in *. rewrite Rabs_Ropp. match goal with |- Rabs ?z <= _ => replace z with (- (rd (norm_rd rd beta * 2) - s * 2)) by ring end. rewrite Rabs_Ropp. exact N. }
  assert (h8 := rel_mul _ _ _ _ _ _ N2 h7 ltac:(lra) ltac:(lra)).
  eapply rel_le; [apply rel_rd; [exact h8|lra|]|lra].
  rewrite Rabs_mult, Ai, Rabs_Ropp, (Rabs_pos_eq (s * 2)) by lra. destruct sb_lo as [S1 S2].
  assert (G1 : 10000 * eta <= u * (s * beta * / Rabs (IZR k))).
  { apply G; [apply Rmult_le_pos; lra|]. destruct (Rle_dec 1 beta) as [L|L].
    - specialize (S1 L). eapply Rle_trans; [exact F1|]. rewrite <- (Rmult_1_r u) at 1. apply Rmult_le_compat_l; lra.
    - eapply Rle_trans; [exact F2|]. apply Rmult_le_compat_l; [lra|]. apply S2. lra. }
  assert (u * (s * beta * / Rabs (IZR k)) * / 4 <= u * (s * beta * / Rabs (IZR k)) * / PI) by (apply Rmult_le_compat_l; [repeat apply Rmult_le_pos; lra|lra]). lra.
Qed.
End Beta.
End Aug.
