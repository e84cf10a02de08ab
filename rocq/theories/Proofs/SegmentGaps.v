(** The segments hinted by the kernels are not too close together (C90). *)
From Coq Require Import ZArith Bool Reals Lra Lia Arith.
From Flocq Require Import Core.
From Coquelicot Require Import Coquelicot.
From Coq Require Import List Sorting.Sorted.
From Verif.Model Require Import Base Util Num Gauss Kernel.
From Verif.Spec Require Import SGauss SCompute SKernel SGaussIEEE.
From Verif.Proofs Require Import KernelSegs GaussFacts ComputeFull.
Import ListNotations.
Open Scope R_scope.
Notation length := List.length.

Section Chained.
Variable g : R.
Let P (a b : R) := a + g <= b.
Lemma chained_suffix A B : chained P (A ++ B) -> chained P B.
Proof.
  induction A as [|x A IH]; cbn [app]; auto. intros H. apply IH. destruct (A ++ B) as [|y l] eqn:E; [exact I|]. apply H.
Qed.
Lemma chained_join A x B : chained P (A ++ [x]) -> chained P (x :: B) -> chained P (A ++ x :: B).
Proof.
  induction A as [|a A IH]; cbn [app]; auto. intros H1 H2. destruct A as [|a' A]; cbn [app] in *.
  - split; [apply H1|exact H2].
  - destruct H1 as [H0 H1]. split; auto.
Qed.
Lemma chained_opp A : chained P A -> chained P (map Ropp (rev A)).
Proof.
  induction A as [|x A IH]; auto. intros H. cbn [rev]. rewrite map_app. destruct A as [|y A]; [exact I|]. destruct H as [H1 H2]. specialize (IH H2).
  cbn [rev] in *. rewrite map_app in *. cbn [map] in *. rewrite <- app_assoc. apply chained_join; auto. cbn. split; auto. unfold P in *. lra.
Qed.
Lemma chained_mirror z : chained P (0 :: z) -> chained P (map Ropp (rev z) ++ 0 :: z).
Proof.
  intros H. apply chained_join; auto. pose proof (chained_opp _ H) as H'. cbn [rev] in H'. rewrite map_app in H'. cbn [map] in H'. rewrite Ropp_0 in H'. exact H'.
Qed.
Lemma chained_map (f : R -> R) h : forall a l, (forall s t, s + h <= t -> f s + g <= f t) -> Forall (fun d => h <= d) l -> chained P (map f (a :: cumsum_from a l)).
Proof.
  intros a l Hf. revert a. induction l as [|d l IH]; intros a F; [exact I|]. inversion F; subst. cbn [cumsum_from map] in *. split; [|apply (IH (a + d)); auto]. apply Hf. lra.
Qed.
End Chained.

Lemma cumsum_last a l M : 0 <= M -> Forall (fun d => d <= M) l -> last (cumsum_from a l) a <= a + INR (length l) * M.
Proof.
  intros HM. revert a. induction l as [|d l IH]; intros a F; [cbn; lra|]. inversion F; subst. cbn [cumsum_from]. specialize (IH (a + d) H2).
  replace (last (a + d :: cumsum_from (a + d) l) a) with (last (cumsum_from (a + d) l) (a + d)).
  - cbn [List.length]. rewrite S_INR. lra.
  - destruct (cumsum_from (a + d) l) as [|y m]; [reflexivity|]. change (last (a + d :: y :: m) a) with (last (y :: m) a). clear. revert y. induction m as [|z m IH]; intros y; [reflexivity|]. apply (IH z).
Qed.

(** Differences between [h] and 1 give segments at least [g] long. *)
Section Gaps.
Variables (diffs : list R) (h g : R) (N : nat).
Hypothesis Hn : diffs <> [].
Hypothesis Hlen : (length diffs <= N)%nat.
Hypothesis Hh : 0 < h.
Hypothesis Hd : Forall (fun d => h <= d <= 1) diffs.
Hypothesis Hg : 0 <= g.
Hypothesis HgN : g * INR N <= h.

Lemma positive_diffs : Forall (fun d => 0 < d) diffs.
Proof. eapply Forall_impl; [|exact Hd]. cbn. intros. lra. Qed.
Lemma total_range : let T := last (cumsum diffs) 0 in 0 < T /\ g * T <= h.
Proof.
  cbv zeta. unfold cumsum. destruct (cumsum_from_props diffs 0 positive_diffs) as (_ & F & L).
  assert (Hc : cumsum_from 0 diffs <> []) by (destruct diffs; [contradiction|discriminate]).
  assert (Ht : 0 < last (cumsum_from 0 diffs) 0) by (rewrite Forall_forall in F; apply F, last_In'; auto).
  assert (HM : last (cumsum_from 0 diffs) 0 <= 0 + INR (length diffs) * 1).
  { apply cumsum_last; [lra|]. eapply Forall_impl; [|exact Hd]. cbn. intros. lra. }
  apply le_INR in Hlen. split; auto. apply Rle_trans with (g * INR N); auto. apply Rmult_le_compat_l; lra.
Qed.
Lemma scaled_gap T s t c : 0 < T -> g * T <= h -> s + h <= t -> s / T + c + g <= t / T + c.
Proof.
  intros HT H1 H2. assert (E : g <= h / T). { apply Rmult_le_reg_r with T; auto. replace (h / T * T) with h by (field; lra). exact H1. }
  assert (h / T <= (t - s) / T) by (apply Rmult_le_compat_r; [apply Rlt_le, Rinv_0_lt_compat; auto|lra]).
  replace ((t - s) / T) with (t / T - s / T) in H by (field; lra). lra.
Qed.
Lemma gaps_x : chained (fun a b => a + g <= b) (segments_x_of diffs).
Proof.
  destruct total_range as (T0 & T1). unfold segments_x_of. set (T := last (cumsum diffs) 0) in *. apply (chained_mirror g).
  assert (Fh : Forall (fun d => h <= d) diffs) by (eapply Forall_impl; [|exact Hd]; cbn; intros; lra).
  pose proof (chained_map g (fun t => t / T) h 0 diffs) as C. cbn [map] in C. replace (0 / T) with 0 in C by (field; lra). apply C; auto.
  intros s t H. pose proof (scaled_gap T s t 0 T0 T1 H). lra.
Qed.
Lemma gaps_y : chained (fun a b => a + g <= b) (segments_y_of diffs).
Proof.
  destruct total_range as (T0 & T1). unfold segments_y_of. set (c := cumsum diffs) in *. set (T := last c 0) in *.
  assert (Fh : Forall (fun d => h <= d) diffs) by (eapply Forall_impl; [|exact Hd]; cbn; intros; lra).
  assert (Hc : c <> []) by (unfold c, cumsum; destruct diffs; [contradiction|discriminate]).
  pose proof (chained_map g (fun t => t / T - 1) h 0 diffs) as C. cbn [map] in C. replace (0 / T - 1) with (-1) in C by (field; lra).
  assert (C' : chained (fun a b => a + g <= b) (-1 :: map (fun t => t / T - 1) c)).
  { apply C; auto. intros s t H. pose proof (scaled_gap T s t (-1) T0 T1 H). lra. }
  clear C. rewrite (app_removelast_last 0 Hc) in C'. fold T in C'. rewrite map_app in C'. cbn [map] in C'. replace (T / T - 1) with 0 in C' by (field; lra).
  set (z := map (fun t => t / T - 1) (removelast c)) in *.
  change ([-1] ++ z ++ [0] ++ map Ropp (rev z) ++ [1]) with ((-1 :: z) ++ 0 :: (map Ropp (rev z) ++ [1])). apply chained_join; auto.
  pose proof (chained_opp g _ C') as C2. cbn [rev] in C2. rewrite rev_app_distr in C2. cbn [rev app map] in C2. rewrite map_app in C2. cbn [map] in C2. rewrite Ropp_0 in C2.
  replace (- -1) with 1 in C2 by ring. exact C2.
Qed.
End Gaps.

(** * The kernels *)
Lemma nzeros_le c lam m M : 0 < c -> 0 < lam <= 10 ^ 16 -> (m <= M)%Z -> c * 16 + 1 <= IZR M -> (nzeros c lam m <= Z.to_nat M)%nat.
Proof.
  intros Hc Hl Hm HM. unfold nzeros. assert (Q : (Z.max (np_round (c * log10 lam)) m <= M)%Z); [|lia].
  apply Z.max_lub; auto. unfold np_round. apply le_IZR.
    assert (L10 : 0 < ln 10) by (rewrite <- ln_1; apply ln_increasing; lra).
    assert (L : log10 lam <= 16).
    { unfold log10. apply Rmult_le_reg_r with (ln 10); auto. unfold Rdiv. rewrite Rmult_assoc, Rinv_l, Rmult_1_r by lra.
      destruct (Rle_dec lam 1) as [H1|H1].
      - apply Rle_trans with 0; [|lra]. rewrite <- ln_1. destruct H1 as [H1|H1]; [apply Rlt_le, ln_increasing; lra|rewrite H1; lra].
      - replace (16 * ln 10) with (ln (10 ^ 16)) by (rewrite ln_pow by lra; rewrite INR_IZR_INZ; reflexivity). destruct (proj2 Hl) as [H|H]; [apply Rlt_le, ln_increasing; lra|rewrite H; lra]. }
    pose proof (Znearest_half (fun x => negb (Z.even x)) (c * log10 lam)) as Z. apply Rabs_le_between in Z.
    assert (c * log10 lam <= c * 16) by (apply Rmult_le_compat_l; lra). lra.
Qed.

Lemma exp_le_pow t n : t <= INR n -> exp t <= 3 ^ n.
Proof.
  intros H. apply Rle_trans with (exp (INR n)).
  - destruct H as [H|H]; [left; apply exp_increasing; auto|rewrite H; lra].
  - clear. induction n as [|n IH]; [cbn; rewrite exp_0; lra|]. rewrite S_INR, exp_plus. cbn [pow]. rewrite Rmult_comm. apply Rmult_le_compat; try (apply Rlt_le, exp_pos); auto. apply exp_le_3.
Qed.
Lemma three98 : 3 ^ 98 <= 10 ^ 50.
Proof.
  replace 98%nat with (2 * 49)%nat by reflexivity. rewrite pow_mult. apply Rle_trans with (10 ^ 49); [apply pow_incr; lra|apply Rle_pow; [lra|lia]].
Qed.
Lemma tiny_le a c : / 10 <= c <= 1 -> 0 < a -> a <= 3 ^ 98 -> / 10 ^ 52 <= c / a.
Proof.
  intros Hc Ha H. pose proof three98 as T. apply Rle_trans with (c * / 10 ^ 50).
  - replace (/ 10 ^ 52) with (/ 100 * / 10 ^ 50) by (field). apply Rmult_le_compat_r; [apply Rlt_le, Rinv_0_lt_compat, pow_lt; lra|lra].
  - unfold Rdiv. apply Rmult_le_compat_l; [lra|]. apply Rinv_le_contravar; auto. lra.
Qed.
Lemma cosh_le t : 0 <= t -> 1 <= cosh t <= exp t.
Proof.
  intros H. unfold cosh. assert (exp (- t) <= exp t) by (destruct H as [H|H]; [left; apply exp_increasing; lra|subst; rewrite Ropp_0; lra]).
  split; [|lra]. assert (E : exp t * exp (- t) = 1) by (rewrite <- exp_plus, Rplus_opp_r, exp_0; reflexivity).
  pose proof (exp_pos t). pose proof (exp_pos (- t)). pose proof (Rle_0_sqr (exp t - exp (- t))). unfold Rsqr in *. nra.
Qed.
Lemma div_le1 c a : 0 <= c <= 1 -> 1 <= a -> c / a <= 1.
Proof. intros H1 H2. apply Rmult_le_reg_r with a; [lra|]. unfold Rdiv. rewrite Rmult_assoc, Rinv_l by lra. lra. Qed.
Lemma exp_ge1 t : 0 <= t -> 1 <= exp t.
Proof. intros H. rewrite <- exp_0. destruct H as [H|H]; [left; apply exp_increasing; auto|subst; lra]. Qed.

Lemma idx_le n i N : In i (seq 0 n) -> (n <= N)%nat -> 0 <= INR i <= INR N.
Proof. intros Hi Hn. apply in_seq in Hi. split; [apply pos_INR|apply le_INR; lia]. Qed.

Lemma diffs_x_range k : 0 < k_lambda k <= 10 ^ 16 -> (length (diffs_x k) <= 241)%nat /\ Forall (fun d => / 10 ^ 52 <= d <= 1) (diffs_x k).
Proof.
  intros Hl. destruct k as [lam|lam]; cbn [diffs_x k_lambda] in *.
  - assert (Hn : (nzeros 15 lam 1 <= 241)%nat) by (apply (nzeros_le 15 lam 1 241); auto; try lia; lra). rewrite map_length, seq_length. split; auto.
    apply Forall_map, Forall_forall. intros i Hi. destruct (idx_le _ _ _ Hi Hn) as (I0 & I1). rewrite (INR_IZR_INZ 241) in I1. simpl Z.of_nat in I1.
    set (t := 143 / 1000 * INR i). assert (T : 0 <= t <= 35) by (unfold t; lra). destruct (cosh_le t ltac:(lra)) as (C1 & C2). split; [|apply div_le1; lra].
    apply tiny_le; [lra|lra|]. eapply Rle_trans; [exact C2|]. apply exp_le_pow. rewrite INR_IZR_INZ. simpl Z.of_nat. lra.
  - assert (Hn : (nzeros 15 lam 15 <= 241)%nat) by (apply (nzeros_le 15 lam 15 241); auto; try lia; lra). rewrite map_length, seq_length. split; auto.
    apply Forall_map, Forall_forall. intros i Hi. destruct (idx_le _ _ _ Hi Hn) as (I0 & I1). rewrite (INR_IZR_INZ 241) in I1. simpl Z.of_nat in I1.
    set (t := 18 / 100 * INR i). assert (T : 0 <= t <= 44) by (unfold t; lra). destruct (cosh_le t ltac:(lra)) as (C1 & C2). split; [|apply div_le1; lra].
    apply tiny_le; [lra|lra|]. eapply Rle_trans; [exact C2|]. apply exp_le_pow. rewrite INR_IZR_INZ. simpl Z.of_nat. lra.
Qed.

Lemma tiny_hundredth : / 10 ^ 52 <= / 100.
Proof. apply Rinv_le_contravar; [lra|]. replace 100 with (10 ^ 2) by ring. apply Rle_pow; [lra|lia]. Qed.
Lemma leading_range : Forall (fun d => / 10 ^ 52 <= d <= 1) leading_diffs.
Proof.
  pose proof tiny_hundredth as T. set (e := / 10 ^ 52) in *. clearbody e. apply Forall_map, Forall_forall. intros z Hz.
  assert (Z : (1000 <= z <= 100000)%Z) by (cbn in Hz; lia). destruct Z as (Z1 & Z2). apply IZR_le in Z1. apply IZR_le in Z2. lra.
Qed.
Lemma diffs_y_range k : 0 < k_lambda k <= 10 ^ 16 -> (length (diffs_y k) <= 321)%nat /\ Forall (fun d => / 10 ^ 52 <= d <= 1) (diffs_y k).
Proof.
  intros Hl. destruct k as [lam|lam]; cbn [diffs_y k_lambda] in *.
  - assert (Hn : (nzeros 20 lam 2 <= 321)%nat) by (apply (nzeros_le 20 lam 2 321); auto; try lia; lra). set (n := nzeros 20 lam 2) in *. cbv zeta.
    set (lead := if (n <? 20)%nat then firstn n leading_diffs else leading_diffs).
    assert (Hlead : (length lead <= n)%nat /\ Forall (fun d => / 10 ^ 52 <= d <= 1) lead).
    { unfold lead. destruct (Nat.ltb_spec n 20).
      - split; [apply firstn_le_length|apply Forall_firstn', leading_range].
      - split; [cbn; lia|apply leading_range]. }
    destruct Hlead as (L1 & L2). rewrite app_length, skipn_length, map_length, seq_length. split; [lia|]. apply Forall_app. split; auto. apply Forall_skipn'.
    apply Forall_map, Forall_forall. intros i Hi. destruct (idx_le _ _ _ Hi Hn) as (I0 & I1). rewrite (INR_IZR_INZ 321) in I1. simpl Z.of_nat in I1.
    set (t := 141 / 1000 * INR i). assert (T : 0 <= t <= 46) by (unfold t; lra). split; [|apply div_le1; [lra|apply exp_ge1; lra]].
    apply tiny_le; [lra|apply exp_pos|]. apply exp_le_pow. rewrite INR_IZR_INZ. simpl Z.of_nat. lra.
  - assert (Hn : (nzeros 20 lam 20 <= 321)%nat) by (apply (nzeros_le 20 lam 20 321); auto; try lia; lra). rewrite map_length, seq_length. split; auto.
    apply Forall_map, Forall_forall. intros i Hi. destruct (idx_le _ _ _ Hi Hn) as (I0 & I1). rewrite (INR_IZR_INZ 321) in I1. simpl Z.of_nat in I1.
    set (t := 337 / 10000 * INR i * ln (INR i + 1)).
    assert (Ln : 0 <= ln (INR i + 1) <= 9).
    { split.
      - rewrite <- ln_1. destruct I0 as [I0|I0]; [apply Rlt_le, ln_increasing; lra|rewrite <- I0, Rplus_0_l; lra].
      - apply Rle_trans with (ln (2 ^ 9)); [apply Rlt_le, ln_increasing; lra|]. rewrite ln_pow by lra. replace (INR 9) with 9 by (rewrite INR_IZR_INZ; reflexivity). pose proof (ln_lt_2). assert (ln 2 <= 1); [|lra].
        rewrite <- (ln_exp 1). apply Rlt_le, ln_increasing; [lra|]. pose proof (exp_ineq1 1 ltac:(lra)). lra. }
    assert (T : 0 <= t <= 98).
    { unfold t. split; [apply Rmult_le_pos; lra|]. apply Rle_trans with (337 / 10000 * 321 * 9); [|lra]. apply Rmult_le_compat; lra. }
    clearbody t. split; [|apply div_le1; [lra|apply exp_ge1; lra]].
    apply tiny_le; [lra|apply exp_pos|]. apply exp_le_pow. rewrite INR_IZR_INZ. simpl Z.of_nat. lra.
Qed.

Lemma hinted_gaps k : 0 < k_lambda k <= 10 ^ 16 ->
  chained (fun a b => a + / 10 ^ 100 <= b) (segments_x k) /\ chained (fun a b => a + / 10 ^ 100 <= b) (segments_y k).
Proof.
  intros Hl. assert (G0 : 0 <= / 10 ^ 100) by (apply Rlt_le, Rinv_0_lt_compat, pow_lt; lra).
  assert (H0 : 0 < / 10 ^ 52) by (apply Rinv_0_lt_compat, pow_lt; lra).
  assert (G : / 10 ^ 100 * 1000 <= / 10 ^ 52).
  { replace (10 ^ 100) with (10 ^ 52 * 10 ^ 48) by (rewrite <- pow_add; reflexivity). rewrite Rinv_mult, Rmult_assoc. rewrite <- (Rmult_1_r (/ 10 ^ 52)) at 2.
    apply Rmult_le_compat_l; [lra|]. assert (P : 0 < 10 ^ 48) by (apply pow_lt; lra). apply Rmult_le_reg_l with (10 ^ 48); auto. rewrite <- Rmult_assoc, Rinv_r by lra. 
    rewrite Rmult_1_l, Rmult_1_r. apply Rle_trans with (10 ^ 3); [lra|]. apply Rle_pow; [lra|lia]. }
  split.
  - destruct (diffs_x_range k Hl) as (A & B). apply (gaps_x _ (/ 10 ^ 52) (/ 10 ^ 100) 241); auto; [apply diffs_x_ok|].
    apply Rle_trans with (/ 10 ^ 100 * 1000); auto. apply Rmult_le_compat_l; auto. rewrite INR_IZR_INZ. simpl Z.of_nat. lra.
  - destruct (diffs_y_range k Hl) as (A & B). apply (gaps_y _ (/ 10 ^ 52) (/ 10 ^ 100) 321); auto; [apply diffs_y_ok|].
    apply Rle_trans with (/ 10 ^ 100 * 1000); auto. apply Rmult_le_compat_l; auto. rewrite INR_IZR_INZ. simpl Z.of_nat. lra.
Qed.

Lemma half_suffix z : z <> [] -> StronglySorted Rlt z -> Forall (fun t => 0 < t) z -> half (map Ropp (rev z) ++ 0 :: z) = 0 :: z.
Proof.
  intros _ _ F. unfold half. rewrite filter_app.
  assert (E1 : filter (fun x => Rleb 0 x) (map Ropp (rev z)) = []).
  { apply Forall_rev in F. induction F as [|x l Hx Hl IH]; [reflexivity|]. cbn. destruct (Rleb_spec 0 (- x)); [lra|exact IH]. }
  assert (E2 : filter (fun x => Rleb 0 x) z = z).
  { clear E1. induction F as [|x l Hx Hl IH]; [reflexivity|]. cbn. destruct (Rleb_spec 0 x); [rewrite IH; reflexivity|lra]. }
  rewrite E1. cbn. destruct (Rleb_spec 0 0); [rewrite E2; reflexivity|lra].
Qed.

Lemma hinted_edges k l : 0 < k_lambda k <= 10 ^ 16 -> l = segments_x k \/ l = segments_y k -> ordinary_edges l /\ ordinary_edges (half l).
Proof.
  intros Hl Hs. destruct (hinted_gaps k Hl) as (Gx & Gy). destruct (segments_valid k) as (Vx & Vy).
  assert (V : valid_segments l) by (destruct Hs; subst; auto). assert (G : chained (fun a b => a + / 10 ^ 100 <= b) l) by (destruct Hs; subst; auto).
  destruct (segments_shape k l Hs) as (z & E & Z1 & Z2 & Z3 & Z4). clear Hs Gx Gy Vx Vy.
  destruct (full_edges _ V) as ((L1 & L2) & _).
  assert (In1 : Forall (fun t => t <= 1) z).
  { destruct (exists_last Z1) as (m & a & Em). rewrite Em, last_last in *. subst a. clear - Z2. induction m as [|b m IH]; cbn in *; [repeat constructor; lra|].
    inversion Z2 as [|? ? S F]; subst. constructor; auto. rewrite Forall_forall in F. apply Rlt_le, F, in_or_app. right. now left. }
  assert (Inz : Forall (fun t => -1 <= t <= 1) (0 :: z)).
  { constructor; [lra|]. rewrite Forall_forall in *. intros x Hx. specialize (Z3 x Hx). specialize (In1 x Hx). cbn in *. lra. }
  split.
  - split; auto. split; auto. rewrite E. apply Forall_app. split; auto. apply Forall_map, Forall_rev. inversion Inz; subst. eapply Forall_impl; [|eassumption]. cbn. intros; lra.
  - rewrite E, half_suffix by auto. rewrite E in G. split; [destruct z; [contradiction|cbn; lia]|]. split; auto. eapply (chained_suffix (/ 10 ^ 100)); eauto.
Qed.
