(** Piecewise polynomials in rounded arithmetic. *)
From Coq Require Import Reals Lra Lia Arith Bool ZArith.
From Coquelicot Require Import Coquelicot.
From Coq Require Import List Sorting.Sorted.
From Verif.Model Require Import Base Util Num Poly PolyIEEE.
From Verif.Spec Require Import SRoots SPoly SKernelIEEE SPolyIEEE.
From Verif.Proofs Require Import BaseFacts SumFacts LegFacts GaussFacts PPolyFacts PPolyExamples KernelRoundCall Clenshaw.
Import ListNotations.
Open Scope R_scope.
Notation length := List.length.

Section Piece.
Variables (u eta : R) (rd : R -> R) (old : bool).
Hypothesis Hr : forall x, Rabs (rd x - x) <= u * Rabs x + eta.
Hypothesis Hu : 0 < u <= / 10000.
Hypothesis He : 0 <= eta.
Variables (a b dx : R).
Hypothesis Hab : a < b.
Let h := b - a.
Let K := Rmax (Rabs a) (Rabs b).
Hypothesis Hdx : Rabs (dx - h) <= u * h + eta.
Hypothesis Hf : 1000 * eta <= u * h /\ 1000 * eta * h <= u.

Lemma h_pos : 0 < h. Proof. unfold h. lra. Qed.

Lemma eta_small : eta <= u / 1000.
Proof.
  pose proof h_pos. destruct (Rle_or_lt h 1) as [L|L].
  - destruct Hf as [F _]. assert (u * h <= u * 1) by (apply Rmult_le_compat_l; lra). lra.
  - destruct Hf as [_ F]. assert (1000 * eta * 1 <= 1000 * eta * h) by (apply Rmult_le_compat_l; lra). lra.
Qed.

Lemma K_pos : 0 <= K.
Proof. unfold K. eapply Rle_trans; [apply (Rabs_pos a)|apply Rmax_l]. Qed.

Lemma mid_near : Rabs (rd (/ 2 * rd (b + a)) - (a + b) / 2) <= 2001 / 1000 * (u * K) + 16 / 10 * eta.
Proof.
  pose proof K_pos as PK. assert (Ka : Rabs a <= K) by apply Rmax_l. assert (Kb : Rabs b <= K) by apply Rmax_r. pose proof eta_small as Es.
  pose proof (Hr (b + a)) as R1. pose proof (Rabs_triang b a) as T.
  assert (u * Rabs (b + a) <= u * (2 * K)) by (apply Rmult_le_compat_l; lra).
  assert (E : Rabs (/ 2 * rd (b + a) - (a + b) / 2) <= u * K + / 2 * eta).
  { replace (/ 2 * rd (b + a) - (a + b) / 2) with (/ 2 * (rd (b + a) - (b + a))) by field. rewrite Rabs_mult, (Rabs_pos_eq (/ 2)) by lra. lra. }
  pose proof (rd_near u eta rd Hr (conj He Es) _ _ _ E) as H0.
  assert (Rabs ((a + b) / 2) <= K). { replace ((a + b) / 2) with (/ 2 * (b + a)) by field. rewrite Rabs_mult, (Rabs_pos_eq (/ 2)) by lra. lra. }
  assert (u * Rabs ((a + b) / 2) <= u * K) by (apply Rmult_le_compat_l; lra). assert (0 <= u * K) by (apply Rmult_le_pos; lra).
  assert (u * (u * K + / 2 * eta) <= / 10000 * (u * K + / 2 * eta)) by (apply Rmult_le_compat_r; lra). lra.
Qed.

Lemma inv_near : exists th, Rabs th <= 21 / 10 * u /\ rd (2 / dx) = 2 / h * (1 + th).
Proof.
  pose proof h_pos as Ph. pose proof eta_small as Es. destruct Hf as [F1 F2].
  assert (E1 : Rabs (dx - h) <= 1001 / 1000 * u * h) by lra. apply Rabs_le_between in E1.
  assert (Uh : 0 <= u * h <= / 10000 * h) by (split; [apply Rmult_le_pos; lra|apply Rmult_le_compat_r; lra]).
  assert (Pdx : 0 < dx) by lra.
  assert (N : Rabs (2 / dx - 2 / h) <= 1002 / 1000 * u * (2 / h)).
  { replace (2 / dx - 2 / h) with ((h - dx) / dx * (2 / h)) by (field; lra). rewrite Rabs_mult, (Rabs_pos_eq (2 / h)) by (apply Rdiv_le_0_compat; lra).
    apply Rmult_le_compat_r; [apply Rdiv_le_0_compat; lra|]. unfold Rdiv. rewrite Rabs_mult, (Rabs_pos_eq (/ dx)) by (left; apply Rinv_0_lt_compat; lra).
    apply (Rmult_le_reg_r dx); [lra|]. rewrite Rmult_assoc, Rinv_l, Rmult_1_r by lra. rewrite Rabs_minus_sym.
    assert (u * (1 - 1002 / 10000000) * h <= u * dx) by (rewrite Rmult_assoc; apply Rmult_le_compat_l; lra). apply Rle_trans with (1001 / 1000 * u * h); [apply Rabs_le; lra|lra]. }
  pose proof (rd_near u eta rd Hr (conj He Es) _ _ _ N) as R1.
  assert (P2 : 0 < 2 / h) by (apply Rdiv_lt_0_compat; lra). rewrite (Rabs_pos_eq (2 / h)) in R1 by lra.
  assert (Eh : eta <= / 2000 * (u * (2 / h))).
  { apply (Rmult_le_reg_r h); [lra|]. replace (/ 2000 * (u * (2 / h)) * h) with (u / 1000) by (field; lra). lra. }
  assert (U2 : 0 <= u * (2 / h)) by (apply Rmult_le_pos; lra).
  assert (u * (1002 / 1000 * u * (2 / h)) <= / 10000 * (1002 / 1000 * u * (2 / h))) by (apply Rmult_le_compat_r; lra).
  exists (rd (2 / dx) / (2 / h) - 1). split.
  - replace (rd (2 / dx) / (2 / h) - 1) with ((rd (2 / dx) - 2 / h) * / (2 / h)) by (field; lra).
    rewrite Rabs_mult, (Rabs_pos_eq (/ (2 / h))) by (left; apply Rinv_0_lt_compat; lra).
    apply (Rmult_le_reg_r (2 / h)); [lra|]. rewrite Rmult_assoc, Rinv_l, Rmult_1_r by lra. lra.
  - field. lra.
Qed.

Lemma coord_near x : a <= x <= b ->
  let z := (2 * x - a - b) / h in
  -1 <= z <= 1 /\ Rabs (rd (rd (x - rd (/ 2 * rd (b + a))) * rd (2 / dx)) - z) <= 5 * u * (1 + K / h).
Proof.
  intros Hx z. pose proof h_pos as Ph. pose proof eta_small as Es. pose proof K_pos as PK.
  assert (Hz : -1 <= z <= 1).
  { unfold z. split; [apply Rle_div_r|apply Rle_div_l]; unfold h; lra. }
  split; [exact Hz|]. set (xm := rd (/ 2 * rd (b + a))). pose proof mid_near as M. fold xm in M.
  assert (E1 : Rabs (x - xm - (x - (a + b) / 2)) <= 2001 / 1000 * (u * K) + 16 / 10 * eta).
  { rewrite Rabs_minus_sym. replace (x - (a + b) / 2 - (x - xm)) with (xm - (a + b) / 2) by ring. exact M. }
  pose proof (rd_near u eta rd Hr (conj He Es) _ _ _ E1) as E2. clear E1 M.
  assert (Xh : Rabs (x - (a + b) / 2) <= h / 2) by (apply Rabs_le; unfold h; lra).
  assert (UK : 0 <= u * K) by (apply Rmult_le_pos; lra).
  assert (u * Rabs (x - (a + b) / 2) <= u * (h / 2)) by (apply Rmult_le_compat_l; lra).
  assert (u * (2001 / 1000 * (u * K) + 16 / 10 * eta) <= / 10000 * (2001 / 1000 * (u * K) + 16 / 10 * eta)) by (apply Rmult_le_compat_r; lra).
  set (d := rd (x - xm)) in *.
  assert (E3 : Rabs (d - (x - (a + b) / 2)) <= / 2 * (u * h) + 201 / 100 * (u * K) + 27 / 10 * eta) by lra. clear E2.
  destruct inv_near as [th [Hth ->]]. destruct Hf as [F1 F2].
  set (k := K / h). assert (Pk : 0 <= k) by (apply Rdiv_le_0_compat; lra).
  assert (E4 : Rabs (d * (2 / h) - z) <= 1006 / 1000 * u + 402 / 100 * (u * k)).
  { replace (d * (2 / h) - z) with ((d - (x - (a + b) / 2)) * (2 / h)) by (unfold z; field; lra). rewrite Rabs_mult, (Rabs_pos_eq (2 / h)) by (apply Rdiv_le_0_compat; lra).
    apply Rle_trans with ((/ 2 * (u * h) + 201 / 100 * (u * K) + 27 / 10000 * (u * h)) * (2 / h)).
    - apply Rmult_le_compat_r; [apply Rdiv_le_0_compat; lra|]. lra.
    - replace ((/ 2 * (u * h) + 201 / 100 * (u * K) + 27 / 10000 * (u * h)) * (2 / h)) with (u * (1 + 54 / 10000) + 402 / 100 * (u * k)) by (unfold k; field; lra). lra. }
  assert (Az : Rabs z <= 1) by (apply Rabs_le; lra).
  assert (Uk : 0 <= u * k) by (apply Rmult_le_pos; lra).
  assert (E5 : Rabs (d * (2 / h * (1 + th)) - z) <= 311 / 100 * u + 403 / 100 * (u * k)).
  { replace (d * (2 / h * (1 + th)) - z) with ((d * (2 / h) - z) * (1 + th) + z * th) by ring. eapply Rle_trans; [apply Rabs_triang|]. rewrite !Rabs_mult.
    assert (T1 : Rabs (1 + th) <= 10003 / 10000) by (apply Rabs_le_between in Hth; apply Rabs_le; lra).
    assert (Rabs (d * (2 / h) - z) * Rabs (1 + th) <= (1006 / 1000 * u + 402 / 100 * (u * k)) * (10003 / 10000)) by (apply Rmult_le_compat; auto using Rabs_pos).
    assert (Rabs z * Rabs th <= 1 * (21 / 10 * u)) by (apply Rmult_le_compat; auto using Rabs_pos). lra. }
  pose proof (rd_near u eta rd Hr (conj He Es) _ _ _ E5) as E6.
  assert (u * Rabs z <= u * 1) by (apply Rmult_le_compat_l; lra).
  assert (u * (311 / 100 * u + 403 / 100 * (u * k)) <= / 10000 * (311 / 100 * u + 403 / 100 * (u * k))) by (apply Rmult_le_compat_r; lra). lra.
Qed.

Lemma norm_near : let N := sqrt (2 / h) in 0 < N /\ Rabs (rd (sqrt (rd (2 / dx))) - N) <= 32 / 10 * u * N.
Proof.
  intros N. pose proof h_pos as Ph. pose proof eta_small as Es. assert (P2 : 0 < 2 / h) by (apply Rdiv_lt_0_compat; lra).
  assert (PN : 0 < N) by (apply sqrt_lt_R0; lra). split; [exact PN|]. destruct inv_near as [th [Hth ->]]. apply Rabs_le_between in Hth.
  rewrite sqrt_mult by lra. fold N. set (r := sqrt (1 + th)). assert (R2 : r * r = 1 + th) by (apply sqrt_sqrt; lra). assert (Pr : 0 <= r) by apply sqrt_pos.
  assert (Er : Rabs (r - 1) <= 21 / 10 * u). { apply Rabs_le. split; nra. }
  assert (E1 : Rabs (N * r - N) <= 21 / 10 * u * N). { replace (N * r - N) with ((r - 1) * N) by ring. rewrite Rabs_mult, (Rabs_pos_eq N) by lra. apply Rmult_le_compat_r; lra. }
  pose proof (rd_near u eta rd Hr (conj He Es) _ _ _ E1) as E2. rewrite (Rabs_pos_eq N) in E2 by lra.
  assert (UN : 0 <= u * N) by (apply Rmult_le_pos; lra).
  assert (u * (21 / 10 * u * N) <= / 10000 * (21 / 10 * u * N)) by (apply Rmult_le_compat_r; lra).
  assert (eta <= / 1000 * (u * N)).
  { destruct (Rle_or_lt 1 N) as [L|L]; [assert (u * 1 <= u * N) by (apply Rmult_le_compat_l; lra); lra|].
    assert (N2 : N * N = 2 / h) by (apply sqrt_sqrt; lra). assert (2 / h <= N) by nra. destruct Hf as [_ F2].
    assert (eta <= / 1000 * (u * (1 / h))).
    { apply (Rmult_le_reg_r h); [lra|]. replace (/ 1000 * (u * (1 / h)) * h) with (u / 1000) by (field; lra). lra. }
    assert (1 / h <= N) by (replace (1 / h) with (/ 2 * (2 / h)) by (field; lra); lra). assert (u * (1 / h) <= u * N) by (apply Rmult_le_compat_l; lra). lra. }
  lra.
Qed.

Lemma piece_near n c x : (1 <= n)%nat -> a <= x <= b -> 60 * (INR n * INR n) * (6 + 5 * (K / h)) * u <= 1 ->
  Rabs (rd (legval_rd old rd n c (rd (rd (x - rd (/ 2 * rd (b + a))) * rd (2 / dx))) * rd (sqrt (rd (2 / dx))))
        - sqrt (2 / h) * legval n c ((2 * x - a - b) / h)) <=
  60 * (INR n * INR n) * (6 + 5 * (K / h)) * u * sqrt (2 / h) * (sumn n (fun k => Rabs (c k)) + eta / u) + eta.
Proof.
  intros Hn Hx Hl. pose proof h_pos as Ph. pose proof eta_small as Es. pose proof K_pos as PK. destruct (coord_near x Hx) as [Hz Hc].
  set (z := (2 * x - a - b) / h) in *. set (xt := rd (rd (x - rd (/ 2 * rd (b + a))) * rd (2 / dx))) in *.
  destruct norm_near as [PN HN]. set (N := sqrt (2 / h)) in *. set (Nh := rd (sqrt (rd (2 / dx)))) in *.
  set (k := K / h) in *. assert (Pk : 0 <= k) by (apply Rdiv_le_0_compat; lra).
  set (w := (6 + 5 * k) * u). assert (Ew : u + 5 * u * (1 + k) = w) by (unfold w; ring).
  set (S := sumn n (fun k => Rabs (c k))). set (A := S + eta / u).
  assert (n1 : 1 <= INR n) by (apply (le_INR 1); auto). assert (nn : 1 <= INR n * INR n) by nra.
  destruct (legval_near u eta rd old Hr Hu (conj He Es) n c xt z (5 * u * (1 + k)) S Hn Hz Hc) as [L1 L2]; [rewrite Ew; unfold w; lra|apply Rle_refl|].
  rewrite Ew in L1. fold A in L1, L2. set (L := legval n c z) in *. set (Lh := legval_rd old rd n c xt) in *.
  assert (PA : 0 <= A) by (pose proof (Rabs_pos L); lra).
  replace (60 * (INR n * INR n) * (6 + 5 * k) * u * N * A) with (60 * (INR n * INR n) * w * (N * A)) by (unfold w; ring).
  assert (Uw : 6 * u <= w) by (unfold w; assert (0 <= k * u) by (apply Rmult_le_pos; lra); lra).
  set (m := INR n * INR n) in *. assert (Wm : w <= m * w) by (rewrite <- (Rmult_1_l w) at 1; apply Rmult_le_compat_r; lra).
  assert (NA : 0 <= N * A) by (apply Rmult_le_pos; lra).
  assert (NN : Rabs Nh <= 1001 / 1000 * N). { pose proof (Rabs_triang_inv Nh N) as T. rewrite (Rabs_pos_eq N) in T by lra. assert (u * N <= / 10000 * N) by (apply Rmult_le_compat_r; lra). lra. }
  assert (E : Rabs (Lh * Nh - N * L) <= 5005 / 100 * (m * w) * (N * A) + 32 / 10 * u * (N * A)).
  { replace (Lh * Nh - N * L) with ((Lh - L) * Nh + L * (Nh - N)) by ring. eapply Rle_trans; [apply Rabs_triang|]. rewrite !Rabs_mult.
    assert (X1 : Rabs (Lh - L) * Rabs Nh <= (50 * m * w * A) * (1001 / 1000 * N)) by (apply Rmult_le_compat; auto using Rabs_pos).
    assert (X2 : Rabs L * Rabs (Nh - N) <= A * (32 / 10 * u * N)) by (apply Rmult_le_compat; auto using Rabs_pos). lra. }
  pose proof (rd_near u eta rd Hr (conj He Es) _ _ _ E) as F. rewrite Rabs_mult, (Rabs_pos_eq N) in F by lra.
  assert (N * Rabs L <= N * A) by (apply Rmult_le_compat_l; lra). assert (u * (N * Rabs L) <= u * (N * A)) by (apply Rmult_le_compat_l; lra).
  assert (U1 : 0 <= u * (N * A)) by (apply Rmult_le_pos; lra). assert (U2 : 6 * u * (N * A) <= m * w * (N * A)) by (apply Rmult_le_compat_r; lra).
  assert (u * (5005 / 100 * (m * w) * (N * A) + 32 / 10 * u * (N * A)) <= / 10000 * (5005 / 100 * (m * w) * (N * A) + 32 / 10 * u * (N * A))) by (apply Rmult_le_compat_r; lra).
  lra.
Qed.
End Piece.

(** * Segments *)
Definition exactg (g : geom) : geom := Geom (gorder g) (glen g) (gnseg g) (gknots g) (diffs (gknots g)).

Lemma exactg_ok u eta g : geom_near u eta g -> geom_ok (exactg g).
Proof.
  intros (A & B & C & D & E). unfold geom_ok, exactg. cbn. split; [exact A|]. split; [exact B|]. split; [exact C|]. split; [rewrite diffs_length; lia|].
  intros i Hi. apply diffs_nth. lia.
Qed.

Lemma geom_ok_near u eta g : 0 <= u -> 0 <= eta -> geom_ok g -> geom_near u eta g.
Proof.
  intros Hu He Hg. pose proof Hg as (A & B & C & D & E). unfold geom_near. do 4 (split; [assumption|]).
  intros i Hi. rewrite E by exact Hi. unfold knot. rewrite Rminus_diag_eq by reflexivity. rewrite Rabs_R0.
  pose proof (PPolyFacts.sorted_nth_lt (gknots g) i (S i) C ltac:(lia)). assert (0 <= u * (nth (S i) (gknots g) 0 - nth i (gknots g) 0)) by (apply Rmult_le_pos; lra). lra.
Qed.

Lemma steps_near u eta rd g : rounding u eta rd -> (0 < gnseg g)%nat -> length (gknots g) = S (gnseg g) -> StronglySorted Rlt (gknots g) ->
  gdx g = map rd (diffs (gknots g)) -> geom_near u eta g.
Proof.
  intros (Hr & _) A B C D. unfold geom_near. do 3 (split; [assumption|]). assert (Ld : length (diffs (gknots g)) = gnseg g) by (rewrite diffs_length; lia).
  split; [rewrite D, map_length; exact Ld|]. intros i Hi. rewrite D.
  rewrite (nth_indep _ 0 (rd 0)) by (rewrite map_length; lia). rewrite map_nth, diffs_nth by lia. unfold knot.
  pose proof (PPolyFacts.sorted_nth_lt (gknots g) i (S i) C ltac:(lia)). pose proof (Hr (nth (S i) (gknots g) 0 - nth i (gknots g) 0)) as H1. rewrite (Rabs_pos_eq (nth (S i) (gknots g) 0 - nth i (gknots g) 0)) in H1 by lra. exact H1.
Qed.

Lemma seg_near u eta g x : geom_near u eta g -> gxmin g <= x <= gxmax g ->
  in_range g x = true /\ (segment g x < gnseg g)%nat /\ knot g (segment g x) <= x <= knot g (S (segment g x)) /\
  (x < knot g (S (segment g x)) \/ (S (segment g x) = gnseg g /\ x = gxmax g)).
Proof.
  intros Hg Hx. destruct (proj1 (lookup (exactg g) x (exactg_ok _ _ _ Hg)) Hx) as (i & t & E & Hi & Hk & Hl & _).
  assert (segment g x = i).
  { unfold split in E. destruct (in_range (exactg g) x); [|discriminate]. cbn [negb] in E. destruct (gnseg (exactg g)); [discriminate|]. injection E as E _. exact E. }
  subst i. split; [|split; [exact Hi|split; [exact Hk|exact Hl]]].
  destruct (in_range g x) eqn:R; [reflexivity|]. unfold split in E. change (in_range (exactg g) x) with (in_range g x) in E. rewrite R in E. discriminate.
Qed.

Lemma seg_unique u eta g x i : geom_near u eta g -> (i < gnseg g)%nat -> knot g i <= x -> (x < knot g (S i) \/ (S i = gnseg g /\ x = gxmax g)) ->
  gxmin g <= x <= gxmax g /\ segment g x = i.
Proof.
  intros Hg Hi H1 H2. pose proof Hg as (A & B & C & D & _).
  assert (X : gxmin g <= x <= gxmax g).
  { unfold gxmin, gxmax. split.
    - eapply Rle_trans; [|exact H1]. destruct i; [apply Rle_refl|left; apply PPolyFacts.sorted_nth_lt; auto; lia].
    - destruct H2 as [H2|[_ ->]]; [|apply Rle_refl]. eapply Rle_trans; [left; exact H2|]. unfold knot. destruct (Nat.eq_dec (S i) (gnseg g)) as [->|]; [apply Rle_refl|left; apply PPolyFacts.sorted_nth_lt; auto; lia]. }
  split; [exact X|]. destruct (seg_near _ _ _ _ Hg X) as (_ & Hs & Hk & Hl). set (s := segment g x) in *.
  destruct (lt_eq_lt_dec s i) as [[L|L]|L]; [|exact L|].
  - exfalso. destruct Hl as [Hl|[Hl _]]; [|lia]. assert (knot g (S s) <= knot g i); [|lra]. unfold knot. destruct (Nat.eq_dec (S s) i) as [->|]; [apply Rle_refl|left; apply PPolyFacts.sorted_nth_lt; auto; lia].
  - exfalso. destruct H2 as [H2|[H2 _]]; [|lia]. assert (knot g (S i) <= knot g s); [|lra]. unfold knot. destruct (Nat.eq_dec (S i) s) as [->|]; [apply Rle_refl|left; apply PPolyFacts.sorted_nth_lt; auto; lia].
Qed.

Lemma split_in u eta rd g x : geom_near u eta g -> gxmin g <= x <= gxmax g ->
  split_rd rd g x = Ok (segment g x, rd (rd (x - gxm_rd rd g (segment g x)) * ginv_rd rd g (segment g x))).
Proof.
  intros Hg Hx. destruct (seg_near _ _ _ _ Hg Hx) as (R & _). unfold split_rd. rewrite R. cbn [negb]. destruct Hg as (A & _). destruct (gnseg g); [lia|reflexivity].
Qed.

Lemma split_outside rd g x : ~ (gxmin g <= x <= gxmax g) -> split_rd rd g x = Raise ValueError.
Proof.
  intros H. unfold split_rd. destruct (in_range g x) eqn:R; [|reflexivity]. exfalso. apply H. unfold in_range in R. apply andb_prop in R as [R1 R2].
  destruct (GaussFacts.Rleb_spec (gxmin g) x); destruct (GaussFacts.Rleb_spec x (gxmax g)); try discriminate. lra.
Qed.

Lemma segment_exists u eta g x : geom_near u eta g -> gxmin g <= x <= gxmax g ->
  exists i, in_segment g i x /\ forall j, in_segment g j x -> j = i.
Proof.
  intros Hg Hx. destruct (seg_near _ _ _ _ Hg Hx) as (_ & A & B & C). exists (segment g x). split.
  - split; [exact A|]. split; [apply B|exact C].
  - intros j (J1 & J2 & J3). destruct (seg_unique _ _ _ _ _ Hg J1 J2 J3) as [_ E]. symmetry. exact E.
Qed.

(** * Values *)
Lemma piece_bound u eta rd old g c x i : rounding u eta rd -> 0 < u <= / 10000 -> 0 <= eta -> geom_near u eta g -> (0 < glen g)%nat ->
  (i < gnseg g)%nat -> knot g i <= x <= knot g (S i) -> fair_length u eta g i -> loss g i * u <= 1 ->
  Rabs (piece_rd old rd g c i (rd (rd (x - gxm_rd rd g i) * ginv_rd rd g i)) - seg_fun g c i x) <= call_error u eta g c i.
Proof.
  intros (Hr & _) Hu He Hg Hn Hi Hx Hf Hl. pose proof Hg as (A & B & C & D & E).
  assert (Hab : knot g i < knot g (S i)) by (apply PPolyFacts.sorted_nth_lt; auto; lia).
  exact (piece_near u eta rd old Hr Hu He (knot g i) (knot g (S i)) (nth i (gdx g) 0) Hab (E i Hi) Hf (glen g) (fun k => cdat c k i) x Hn Hx Hl).
Qed.

Lemma here_le g i x : in_segment g i x -> knot g i <= x <= knot g (S i).
Proof. intros (H1 & H2 & H3). split; [exact H2|]. destruct H3 as [H3|[E ->]]; [lra|]. unfold knot, gxmax. rewrite E. apply Rle_refl. Qed.

Lemma scall_near u eta rd old p x i : rounding u eta rd -> 0 < u <= / 10000 -> 0 <= eta -> geom_near u eta (sgeom p) -> (0 < glen (sgeom p))%nat ->
  in_segment (sgeom p) i x -> fair_length u eta (sgeom p) i -> loss (sgeom p) i * u <= 1 ->
  exists y, scall_rd old rd p x = Ok y /\ Rabs (y - seg_fun (sgeom p) (scol p) i x) <= call_error u eta (sgeom p) (scol p) i.
Proof.
  intros Hr Hu He Hg Hn Hx Hf Hl. pose proof (here_le _ _ _ Hx) as Hk. pose proof Hx as (H1 & H2 & H3). destruct (seg_unique _ _ _ _ _ Hg H1 H2 H3) as [X S].
  unfold scall_rd. rewrite (split_in u eta) by assumption. rewrite S. cbn [bind fst snd]. destruct (glen (sgeom p)) as [|m] eqn:G; [lia|].
  eexists. split; [reflexivity|]. apply piece_bound; auto. lia.
Qed.

Lemma vcall_near u eta rd old p x i : rounding u eta rd -> 0 < u <= / 10000 -> 0 <= eta -> geom_near u eta (vgeom p) -> (0 < glen (vgeom p))%nat ->
  in_segment (vgeom p) i x -> fair_length u eta (vgeom p) i -> loss (vgeom p) i * u <= 1 ->
  exists ys, vcall_rd old rd p x = Ok ys /\ Forall2 (fun c y => Rabs (y - seg_fun (vgeom p) c i x) <= call_error u eta (vgeom p) c i) (vcols p) ys.
Proof.
  intros Hr Hu He Hg Hn Hx Hf Hl. pose proof (here_le _ _ _ Hx) as Hk. pose proof Hx as (H1 & H2 & H3). destruct (seg_unique _ _ _ _ _ Hg H1 H2 H3) as [X S].
  unfold vcall_rd. rewrite (split_in u eta) by assumption. rewrite S. cbn [bind fst snd]. destruct (glen (vgeom p)) as [|m] eqn:G; [lia|].
  eexists. split; [reflexivity|]. induction (vcols p) as [|c cs IH]; constructor; auto. apply piece_bound; auto. lia.
Qed.

Lemma value_entry old rd p l x v : value_rd old rd p l x = Ok v <-> exists vs, vcall_rd old rd p x = Ok vs /\ pyindex vs l = Some v.
Proof.
  unfold value_rd, vcall_rd. destruct (split_rd rd (vgeom p) x) as [a|e]; simpl.
  - destruct (glen (vgeom p)) as [|n] eqn:E.
    + split; [|intros (vs & H & _); discriminate]. destruct (pyindex (vcols p) l); discriminate.
    + split.
      * destruct (pyindex (vcols p) l) eqn:El; [|discriminate]. intros [= <-].
        eexists. split; [reflexivity|]. rewrite pyindex_map, El. reflexivity.
      * intros (vs & [= <-] & H). rewrite pyindex_map in H. destruct (pyindex (vcols p) l); [|discriminate].
        simpl in H. congruence.
  - split; [discriminate|]. intros (vs & H & _). discriminate.
Qed.

Lemma value_item_rd old rd p l x v : value_rd old rd p l x = Ok v <-> (do q <- getitem p l; scall_rd old rd q x) = Ok v.
Proof.
  unfold value_rd, getitem, scall_rd. destruct (pyindex (vcols p) l) as [c|]; simpl.
  - reflexivity.
  - destruct (split_rd rd (vgeom p) x); simpl; split; discriminate.
Qed.

Lemma arr_entry old rd p xs M : vcall_arr_rd old rd p xs = Ok M ->
  length M = length (vcols p) /\
  (forall l m row x, nth_error M l = Some row -> nth_error xs m = Some x -> exists v, nth_error row m = Some v /\ value_rd old rd p (Z.of_nat l) x = Ok v).
Proof.
  unfold vcall_arr_rd. destruct (forallb (in_range (vgeom p)) xs) eqn:F; [|discriminate]. cbn [negb].
  destruct (collect (map (split_rd rd (vgeom p)) xs)) as [ix|e] eqn:C; [|discriminate]. cbn [bind]. destruct (glen (vgeom p)) as [|n] eqn:G; [discriminate|]. intros [= <-].
  split; [apply map_length|]. intros l m row x Hrow Hx. rewrite nth_error_map in Hrow. destruct (nth_error (vcols p) l) as [c|] eqn:Ec; [|discriminate]. cbn in Hrow. injection Hrow as <-.
  apply collect_ok in C. assert (K : exists a, nth_error ix m = Some a /\ split_rd rd (vgeom p) x = Ok a).
  { clear -C Hx. remember (map (split_rd rd (vgeom p)) xs) as L eqn:E. revert m xs E Hx. induction C as [|a b l l' H C IH]; intros m xs E Hx.
    - destruct xs; [|discriminate]. destruct m; discriminate.
    - destruct xs as [|x0 xs]; [discriminate|]. cbn in E. injection E as E1 E2. destruct m; cbn in *.
      + injection Hx as ->. exists b. split; [reflexivity|congruence].
      + eapply IH; eauto. }
  destruct K as (a & K1 & K2). exists (piece_rd old rd (vgeom p) c (fst a) (snd a)). split; [rewrite nth_error_map, K1; reflexivity|].
  unfold value_rd. rewrite K2. cbn [bind]. unfold pyindex.
  assert (Hlt : (l < length (vcols p))%nat) by (apply nth_error_Some; congruence).
  rewrite (proj2 (andb_true_iff _ _)) by (split; [apply Z.leb_le|apply Z.ltb_lt]; lia).
  destruct (Z.ltb_spec (Z.of_nat l) 0); [lia|]. rewrite Nat2Z.id, Ec, G. reflexivity.
Qed.

Lemma arr_succeeds u eta rd old p xs : geom_near u eta (vgeom p) -> (0 < glen (vgeom p))%nat ->
  (Forall (fun x => gxmin (vgeom p) <= x <= gxmax (vgeom p)) xs -> exists M, vcall_arr_rd old rd p xs = Ok M) /\
  (~ Forall (fun x => gxmin (vgeom p) <= x <= gxmax (vgeom p)) xs -> vcall_arr_rd old rd p xs = Raise ValueError).
Proof.
  intros Hg Hn. assert (I : forall x, in_range (vgeom p) x = true <-> gxmin (vgeom p) <= x <= gxmax (vgeom p)).
  { intros x. unfold in_range. destruct (GaussFacts.Rleb_spec (gxmin (vgeom p)) x); destruct (GaussFacts.Rleb_spec x (gxmax (vgeom p))); cbn; split; intros; try discriminate; try lra; reflexivity. }
  unfold vcall_arr_rd. split; intros F.
  - assert (E : forallb (in_range (vgeom p)) xs = true) by (apply forallb_forall; intros x Hx; apply I; rewrite Forall_forall in F; auto). rewrite E. cbn [negb].
    assert (C : exists ix, collect (map (split_rd rd (vgeom p)) xs) = Ok ix).
    { clear E. induction F as [|x xs Hx F IH]; [eexists; reflexivity|]. destruct IH as [ix IH]. cbn. rewrite (split_in u eta) by assumption. cbn. rewrite IH. eexists. reflexivity. }
    destruct C as [ix C]. rewrite C. cbn [bind]. destruct (glen (vgeom p)); [lia|]. eexists. reflexivity.
  - destruct (forallb (in_range (vgeom p)) xs) eqn:E; [|reflexivity]. exfalso. apply F. apply Forall_forall. intros x Hx. apply I. rewrite forallb_forall in E. auto.
Qed.

Lemma call_outside old rd x :
  (forall p, ~ (gxmin (sgeom p) <= x <= gxmax (sgeom p)) -> scall_rd old rd p x = Raise ValueError) /\
  (forall p, ~ (gxmin (vgeom p) <= x <= gxmax (vgeom p)) -> vcall_rd old rd p x = Raise ValueError /\ forall l, value_rd old rd p l x = Raise ValueError).
Proof.
  split; intros p H.
  - unfold scall_rd. rewrite split_outside by exact H. reflexivity.
  - split; [|intros l]; [unfold vcall_rd|unfold value_rd]; rewrite split_outside by exact H; reflexivity.
Qed.

(** * Exact arithmetic *)
Lemma split_exact g x : split_rd (fun t => t) g x = split g x.
Proof. reflexivity. Qed.
Lemma exact_arithmetic old :
  (forall n c x, legval_rd old (fun t => t) n c x = legval n c x) /\
  (forall p x, scall_rd old (fun t => t) p x = scall p x) /\ (forall p x, vcall_rd old (fun t => t) p x = vcall p x) /\
  (forall p xs, vcall_arr_rd old (fun t => t) p xs = vcall_arr p xs) /\ (forall p l x, value_rd old (fun t => t) p l x = value p l x).
Proof.
  assert (P : forall g c i xt, piece_rd old (fun t => t) g c i xt = legval (glen g) (fun k => cdat c k i) xt * gnorm g i).
  { intros. unfold piece_rd. rewrite legval_exact. reflexivity. }
  split; [intros; apply legval_exact|]. split; [|split; [|split]]; intros.
  - unfold scall_rd, scall. rewrite split_exact. destruct (split (sgeom p) x); cbn; [|reflexivity]. destruct (glen (sgeom p)) eqn:G; [reflexivity|]. rewrite P, G. reflexivity.
  - unfold vcall_rd, vcall. rewrite split_exact. destruct (split (vgeom p) x); cbn; [|reflexivity]. destruct (glen (vgeom p)) eqn:G; [reflexivity|]. f_equal. apply map_ext. intros c. rewrite P, G. reflexivity.
  - unfold vcall_arr_rd, vcall_arr. replace (map (split_rd (fun t => t) (vgeom p)) xs) with (map (split (vgeom p)) xs) by reflexivity. destruct (negb (forallb (in_range (vgeom p)) xs)); [reflexivity|].
    destruct (collect (map (split (vgeom p)) xs)); cbn; [|reflexivity]. destruct (glen (vgeom p)) eqn:G; [reflexivity|]. f_equal. apply map_ext. intros c. apply map_ext. intros b. rewrite P, G. reflexivity.
  - unfold value_rd, value. rewrite split_exact. destruct (split (vgeom p) x); cbn; [|reflexivity]. destruct (pyindex (vcols p) l); [|reflexivity]. destruct (glen (vgeom p)) eqn:G; [reflexivity|]. rewrite P, G. reflexivity.
Qed.

(** * Doubles *)
Lemma fair_double g i : / 10 ^ 290 <= knot g (S i) - knot g i <= 10 ^ 290 -> fair_length (/ 2 ^ 53) eta64 g i.
Proof.
  intros [H1 H2]. unfold fair_length. set (h := knot g (S i) - knot g i) in *. clearbody h.
  destruct (small_double 0 ltac:(lra)) as (_ & _ & E0 & E1). 
  assert (P : 0 < 10 ^ 290) by (apply pow_lt; lra). assert (T : 10 ^ 300 = 10 ^ 290 * 10 ^ 10) by (rewrite <- pow_add; reflexivity). assert (T10 : 1000 <= 10 ^ 10) by (cbn; lra).
  rewrite T in E1. clear T. revert H1 H2 P E1 T10 E0. generalize (10 ^ 290) (10 ^ 10) (/ 2 ^ 53) eta64. intros M m u e H1 H2 P E1 T10 E0.
  assert (F : 1000 * e * M <= u). { apply Rle_trans with (e * (M * m)); [|exact E1]. replace (1000 * e * M) with (e * M * 1000) by ring. replace (e * (M * m)) with (e * M * m) by ring. apply Rmult_le_compat_l; [apply Rmult_le_pos; lra|lra]. }
  split.
  - apply (Rmult_le_reg_r M); [lra|]. eapply Rle_trans; [exact F|]. assert (u0 : 0 <= u). { eapply Rle_trans; [|exact F]. apply Rmult_le_pos; lra. }
    rewrite Rmult_assoc. rewrite <- (Rmult_1_r u) at 1. apply Rmult_le_compat_l; [lra|]. apply (Rmult_le_reg_l (/ M)); [apply Rinv_0_lt_compat; lra|]. replace (/ M * (h * M)) with h by (field; lra). lra.
  - eapply Rle_trans; [|exact F]. apply Rmult_le_compat_l; lra.
Qed.

Lemma u_double : 0 < / 2 ^ 53 <= / 10000.
Proof. split; [apply Rinv_0_lt_compat, pow_lt; lra|]. apply Rinv_le_contravar; [lra|]. cbn; lra. Qed.
Lemma eta_double : 0 <= eta64.
Proof. apply (small_double 0). lra. Qed.

Lemma double_call old p x i : geom_near (/ 2 ^ 53) eta64 (sgeom p) -> (0 < glen (sgeom p))%nat -> in_segment (sgeom p) i x ->
  / 10 ^ 290 <= knot (sgeom p) (S i) - knot (sgeom p) i <= 10 ^ 290 -> loss (sgeom p) i <= 2 ^ 53 ->
  exists y, scall_rd old IEEE.rnd64 p x = Ok y /\ Rabs (y - seg_fun (sgeom p) (scol p) i x) <= call_error (/ 2 ^ 53) eta64 (sgeom p) (scol p) i.
Proof.
  intros Hg Hn Hx Hh Hl. apply scall_near; auto using rounding_double, u_double, eta_double.
  - apply fair_double; auto.
  - apply (Rmult_le_reg_r (2 ^ 53)); [apply pow_lt; lra|]. rewrite Rmult_assoc, Rinv_l by (apply pow_nonzero; lra). lra.
Qed.

(** * A concrete object *)
Lemma ex_case : geom_near (/ 2 ^ 53) eta64 ex_geom /\ (0 < glen ex_geom)%nat /\ in_segment ex_geom 1 (/ 2) /\
  / 10 ^ 290 <= knot ex_geom 2 - knot ex_geom 1 <= 10 ^ 290 /\ loss ex_geom 1 = 5940 /\ seg_fun ex_geom line_col 1 (/ 2) = - / 2.
Proof.
  split; [apply geom_ok_near; [left; apply u_double|apply eta_double|apply ex_geom_ok]|]. split; [cbn; lia|].
  split; [unfold in_segment, knot; cbn; split; [lia|]; split; lra|].
  assert (K2 : knot ex_geom 2 = 2) by reflexivity. assert (K1 : knot ex_geom 1 = 0) by reflexivity.
  split.
  { rewrite K2, K1. assert (P : 10 ^ 1 <= 10 ^ 290) by (apply Rle_pow; [lra|lia]). split; [|lra]. assert (/ 10 ^ 290 <= / 10 ^ 1) by (apply Rinv_le_contravar; lra). lra. }
  split.
  - unfold loss. rewrite K2, K1. change (glen ex_geom) with 3%nat. rewrite Rabs_R0, (Rabs_pos_eq 2), Rmax_right by lra. cbn. lra.
  - unfold seg_fun. rewrite K2, K1. replace (2 / (2 - 0)) with 1 by field. rewrite sqrt_1. change (glen ex_geom) with 3%nat. cbn [sumn cdat line_col]. rewrite legP_1. field.
Qed.

Lemma ex_value old : exists y, scall_rd old IEEE.rnd64 (SPoly ex_geom line_col) (/ 2) = Ok y /\ Rabs (y + / 2) <= / 10 ^ 12.
Proof.
  destruct ex_case as (A & B & C & D & E & F).
  destruct (double_call old (SPoly ex_geom line_col) (/ 2) 1 A B C D) as (y & Y & H); [cbn [sgeom]; rewrite E; cbn; lra|].
  exists y. split; [exact Y|]. cbn [sgeom scol] in H. rewrite F in H. replace (y + / 2) with (y - - / 2) by ring. eapply Rle_trans; [exact H|].
  unfold call_error. rewrite E. assert (K2 : knot ex_geom 2 = 2) by reflexivity. assert (K1 : knot ex_geom 1 = 0) by reflexivity. rewrite K2, K1.
  replace (2 / (2 - 0)) with 1 by field. rewrite sqrt_1. change (glen ex_geom) with 3%nat. cbn [sumn cdat line_col]. rewrite Rabs_R0, Rabs_R1.
  destruct (small_double 0 ltac:(lra)) as (_ & _ & E0 & E1).
  assert (T : 10 ^ 20 <= 10 ^ 300) by (apply Rle_pow; [lra|lia]).
  assert (E2 : eta64 * 10 ^ 20 <= / 2 ^ 53) by (eapply Rle_trans; [|exact E1]; apply Rmult_le_compat_l; assumption). clear E1 T.
  unfold Rdiv. rewrite Rinv_inv.
  assert (P53 : 2 ^ 53 = 9007199254740992) by (cbn; lra). assert (P20 : 10 ^ 20 = 100000000000000000000) by (cbn; lra). assert (P12 : 10 ^ 12 = 1000000000000) by (cbn; lra).
  rewrite P53, P20, P12 in *. revert E0 E2. generalize eta64. intros e E0 E2. lra.
Qed.
