(** Composite rules in rounded arithmetic (C89). *)
From Coq Require Import ZArith Bool Reals Lra Lia Arith.
From Coquelicot Require Import Coquelicot.
From Coq Require Import List Sorting.Sorted.
From Verif.Model Require Import Base Util Num Gauss Kernel KernelIEEE GaussIEEE.
From Verif.Spec Require Import SGauss SCompute SKernelIEEE SGaussIEEE.
From Verif.Proofs Require Import GaussFacts ComputeNodes ComputePost ComputeDefined KernelRound GaussRound.
Import ListNotations.
Open Scope R_scope.
Notation length := List.length.

(** * Pieces *)
Section Pieces.
Variables (F : R -> R -> rule) (segs : list R).
Hypothesis Fa : forall a b, ra (F a b) = a.
Hypothesis Fb : forall a b, rb (F a b) = b.
Hypothesis Hl : (2 <= length segs)%nat.
Let m := (length segs - 1)%nat.
Let ps := map2 F (init segs) (tl segs).

Lemma gen_nth_error : forall (l : list R) i, (S i < length l)%nat -> nth_error (map2 F (init l) (tl l)) i = Some (F (nth i l 0) (nth (S i) l 0)).
Proof.
  induction l as [|x [|y l] IH]; intros i Hi; cbn [List.length] in Hi; try lia. destruct i.
  - reflexivity.
  - exact (IH i ltac:(cbn [List.length]; lia)).
Qed.
Lemma gen_len : length ps = m.
Proof.
  unfold ps, m. clear - Hl. induction segs as [|x [|y l] IH]; cbn [List.length] in *; try lia.
  change (map2 F (init (x :: y :: l)) (tl (x :: y :: l))) with (F x y :: map2 F (init (y :: l)) (tl (y :: l))). cbn [List.length].
  destruct l as [|z l]; [reflexivity|]. rewrite IH by (cbn; lia). cbn [List.length]. lia.
Qed.
Lemma gen_nth i d : (i < m)%nat -> nth i ps d = F (nth i segs 0) (nth (S i) segs 0).
Proof. intros Hi. apply nth_error_nth. apply gen_nth_error. unfold m in Hi. lia. Qed.
Lemma gen_chained : chained abut ps.
Proof.
  unfold ps. clear Hl ps m. destruct segs as [|s l]; [exact I|]. revert s. induction l as [|t l IH]; intros s; [exact I|].
  specialize (IH t). destruct l as [|w l]; [exact I|].
  change (abut (F s t) (F t w) /\ chained abut (map2 F (init (t :: w :: l)) (tl (t :: w :: l)))). split; [unfold abut; rewrite Fa, Fb; auto|exact IH].
Qed.
Lemma gen_last d : last ps d = F (nth (m - 1) segs 0) (nth m segs 0).
Proof.
  pose proof gen_len as E. unfold ps in *. clear Fa Fb. assert (M : (1 <= m)%nat) by (unfold m; lia).
  assert (L : forall A (l : list A) d, l <> [] -> last l d = nth (length l - 1) l d).
  { clear. intros A l d H. induction l as [|x [|y l] IH]; [congruence|reflexivity|]. change (last (x :: y :: l) d) with (last (y :: l) d).
    rewrite IH by discriminate. cbn [List.length]. replace (S (S (length l)) - 1)%nat with (S (S (length l) - 1)) by lia. reflexivity. }
  rewrite L. 2:{ intros N. rewrite N in E. cbn in E. lia. }
  rewrite E. rewrite gen_nth by lia. do 2 f_equal. lia.
Qed.
End Pieces.

Lemma join_parts_rd_ok rd a b : forall rs prev, chained abut rs -> match rs with [] => True | r :: _ => ra r = prev end ->
  join_parts_rd rd a b prev rs =
  Ok (map (fun r => (rx r, rw r, map (fun t => rd (t + rd (ra r - a))) (rfw r), map (fun t => rd (t + rd (b - rb r))) (rbw r))) rs).
Proof.
  induction rs as [|r rs IH]; intros prev Hc Hh; simpl; auto.
  subst prev. destruct (Reqb_spec (ra r) (ra r)); [|contradiction].
  rewrite IH; auto.
  - destruct rs; simpl in *; tauto.
  - destruct rs; auto. simpl in Hc. symmetry. apply Hc.
Qed.

Lemma join_rd_ok rd r0 tl : let rs := r0 :: tl in chained abut rs ->
  join_rd rd rs = Ok (Rule (concat (map rx rs)) (concat (map rw rs))
    (concat (map (fun r => map (fun t => rd (t + rd (ra r - ra r0))) (rfw r)) rs))
    (concat (map (fun r => map (fun t => rd (t + rd (rb (last rs r0) - rb r))) (rbw r)) rs)) (ra r0) (rb (last rs r0))).
Proof.
  intros rs Hc. unfold join_rd, rs. fold rs. rewrite join_parts_rd_ok; auto. 2:{ reflexivity. }
  cbn [bind]. rewrite !map_map. reflexivity.
Qed.

Section Rule.
Variables (u eta e : R) (rd : R -> R).
Hypothesis Hs : small_errors u eta e.
Hypothesis Hrd : rounding u eta rd.
Variables (n : nat) (q r : rule) (sg om rho : R) (segs : list R) (G : rule).
Hypothesis Hq : ordinary_rule n q.
Hypothesis Hr : rule_near sg om rho r q.
Hypothesis Hsg : 0 <= sg <= / 1000.
Hypothesis Hom : 0 <= om <= / 1000.
Hypothesis Hrho : 0 <= rho <= / 1000.
Hypothesis He : ordinary_edges segs.
Hypothesis HG : piecewise q segs = Ok G.

Let m := (length segs - 1)%nat.
Let a i := nth i segs 0.

Lemma e_gap i : (i < m)%nat -> a i + gap <= a (S i).
Proof.
  destruct He as (Hl & _ & Hc). intros Hi. unfold a, m, gap in *. clear - Hc Hi. revert i Hi. induction segs as [|x [|y l] IH]; intros i Hi; cbn [List.length] in Hi; try lia.
  destruct Hc as [H1 H2]. destruct i; [exact H1|]. apply (IH H2). cbn [List.length]. lia.
Qed.
Lemma e_in i : (i <= m)%nat -> -1 <= a i <= 1.
Proof. destruct He as (Hl & Hf & _). intros Hi. rewrite Forall_forall in Hf. apply Hf. unfold a. apply nth_In. unfold m in Hi. lia. Qed.
Lemma e_ok : edges_ok segs.
Proof.
  destruct He as (Hl & _ & Hc). split; auto. apply ComputePost.chained_sorted. revert Hc. clear.
  assert (P : 0 < / 10 ^ 100) by (apply Rinv_0_lt_compat, pow_lt; lra). revert P. generalize (/ 10 ^ 100). intros g P. induction segs as [|x [|y l] IH]; intros Hc; [exact I|exact I|].
  destruct Hc as [H1 H2]. split; [lra|exact (IH H2)].
Qed.
Lemma e_mono i j : (i <= j)%nat -> (j <= m)%nat -> a i <= a j.
Proof.
  intros Hij Hj. destruct (Nat.eq_dec i j) as [->|N]; [lra|]. destruct e_ok as [Hl Hss]. apply Rlt_le. unfold a. apply PPolyFacts.sorted_nth_lt; auto; unfold m in Hj; lia.
Qed.

Lemma G_len : length (rx G) = (m * n)%nat /\ length (rw G) = (m * n)%nat.
Proof. apply (node_lengths n q segs G); [apply Hq|apply e_ok|exact HG]. Qed.
Lemma G_at i j : (i < m)%nat -> (j < n)%nat ->
  nth (i * n + j) (rx G) 0 = (a (S i) - a i) / 2 * nth j (rx q) 0 + (a (S i) + a i) / 2 /\
  nth (i * n + j) (rw G) 0 = nth j (rw q) 0 * ((a (S i) - a i) / 2).
Proof. apply (node_at n q segs G); [apply Hq|apply e_ok|exact HG]. Qed.
Lemma G_ends : ra G = a 0 /\ rb G = a m.
Proof.
  destruct e_ok as [Hl _]. pose proof (piecewise_interval q segs G 0 Hl HG) as (A & B). split.
  - rewrite A. unfold a. destruct segs; reflexivity.
  - rewrite B. unfold a, m. clear. induction segs as [|x [|y l] IH]; [reflexivity|reflexivity|]. change (last (x :: y :: l) 0) with (last (y :: l) 0). rewrite IH. cbn [List.length].
    replace (S (S (length l)) - 1)%nat with (S (S (length l) - 1)) by lia. reflexivity.
Qed.

Let ps := map2 (reseat_rd rd r) (init segs) (tl segs).
Definition g_rd : rule :=
  Rule (concat (map rx ps)) (concat (map rw ps))
       (concat (map (fun r => map (fun t => rd (t + rd (ra r - a 0))) (rfw r)) ps))
       (concat (map (fun r => map (fun t => rd (t + rd (a m - rb r))) (rbw r)) ps)) (a 0) (a m).

Lemma g_rd_ok : piecewise_rd rd r segs = Ok g_rd.
Proof.
  destruct e_ok as [Hl Hss]. unfold piecewise_rd.
  rewrite (proj2 (edges_test segs)) by (apply ComputeDefined.sorted_chained; auto).
  pose proof (gen_chained (reseat_rd rd r) segs (fun _ _ => eq_refl) (fun _ _ => eq_refl)) as Hc. pose proof (gen_len (reseat_rd rd r) segs Hl) as HL.
  pose proof (fun d => gen_last (reseat_rd rd r) segs Hl d) as Hla. pose proof (fun d => gen_nth (reseat_rd rd r) segs Hl 0%nat d) as H0.
  unfold g_rd. fold ps in Hc, HL, Hla, H0 |- *. destruct ps as [|p0 tl'] eqn:E. { cbn in HL. lia. }
  rewrite join_rd_ok by exact Hc. specialize (H0 p0 ltac:(lia)). cbn [nth] in H0. rewrite (Hla p0). cbn [reseat_rd rb].
  assert (E0 : ra p0 = a 0) by (rewrite H0; reflexivity). rewrite E0. reflexivity.
Qed.

Lemma ps_nth i d : (i < m)%nat -> nth i ps d = reseat_rd rd r (a i) (a (S i)).
Proof. destruct e_ok as [Hl _]. apply gen_nth; auto. Qed.
Lemma ps_len : length ps = m.
Proof. destruct e_ok as [Hl _]. apply gen_len; auto. Qed.
Lemma ps_in p : In p ps -> exists i, (i < m)%nat /\ p = reseat_rd rd r (a i) (a (S i)).
Proof. intros H. apply (In_nth _ _ q) in H as (i & Hi & <-). rewrite ps_len in Hi. exists i. split; auto. apply ps_nth; auto. Qed.

Lemma q_len : (0 < n)%nat /\ length (rx q) = n /\ length (rw q) = n /\ ra q = -1 /\ rb q = 1.
Proof. destruct Hq as ((A & B & C & _ & _ & D & E & _) & _). auto. Qed.
Lemma r_len : length (rx r) = n /\ length (rw r) = n /\ length (rfw r) = n /\ length (rbw r) = n /\ ra r = -1 /\ rb r = 1.
Proof. destruct q_len as (_ & A & B & C & D). destruct Hr as (E & F & H & I & J & K & _). rewrite E, F, H, I, J, K. repeat split; auto. Qed.
Lemma r_at j : (j < n)%nat -> Rabs (nth j (rx r) 0 - nth j (rx q) 0) <= sg /\ rel om (nth j (rw r) 0) (nth j (rw q) 0) /\
  rel rho (nth j (rfw r) 0) (1 + nth j (rx q) 0) /\ rel rho (nth j (rbw r) 0) (1 - nth j (rx q) 0) /\
  / 10 ^ 20 <= nth j (rw q) 0 /\ / 10 ^ 20 <= 1 + nth j (rx q) 0 /\ / 10 ^ 20 <= 1 - nth j (rx q) 0 /\ -1 <= nth j (rx q) 0 <= 1.
Proof.
  intros Hj. destruct q_len as (_ & A & B & C & D). destruct Hr as (_ & _ & _ & _ & _ & _ & H). destruct (H j ltac:(lia)) as (H1 & H2 & H3 & H4).
  rewrite C in H3. rewrite D in H4. replace (nth j (rx q) 0 - -1) with (1 + nth j (rx q) 0) in H3 by ring. pose proof (rule_node n q segs (proj1 Hq) j Hj) as [Hn _].
  destruct Hq as (_ & _ & K). destruct (K j Hj) as (K1 & K2 & K3). repeat (split; [assumption|]). lra.
Qed.

(** a block of n numbers in each piece *)
Lemma block_at (h : rule -> list R) i j : (forall x y, length (h (reseat_rd rd r x y)) = n) -> (i < m)%nat -> (j < n)%nat ->
  nth (i * n + j) (concat (map h ps)) 0 = nth j (h (reseat_rd rd r (a i) (a (S i)))) 0.
Proof.
  intros Hh Hi Hj. rewrite (nth_concat_blocks h n 0 q).
  - rewrite ps_nth; auto.
  - intros b Hb. apply ps_in in Hb as (k & _ & ->). apply Hh.
  - rewrite ps_len. auto.
  - auto.
Qed.
Lemma block_len (h : rule -> list R) : (forall x y, length (h (reseat_rd rd r x y)) = n) -> length (concat (map h ps)) = (m * n)%nat.
Proof. intros Hh. rewrite <- ps_len. apply concat_blocks_length. intros b Hb. apply ps_in in Hb as (k & _ & ->). apply Hh. Qed.

Lemma g_node i j : (i < m)%nat -> (j < n)%nat ->
  Rabs (nth (i * n + j) (rx g_rd) 0 - nth (i * n + j) (rx G) 0) <= (sg + 7 * u) * Rmax (Rabs (a i)) (Rabs (a (S i))).
Proof.
  intros Hi Hj. destruct r_len as (L1 & L2 & L3 & L4 & L5 & L6). rewrite (proj1 (G_at i j Hi Hj)). unfold g_rd. cbn [rx].
  rewrite block_at by (auto; intros; cbn; rewrite map_length; auto). cbn [reseat_rd rx]. rewrite (nth_map_in _ _ _ 0 0) by lia. rewrite L5, L6.
  destruct (r_at j Hj) as (H1 & _ & _ & _ & _ & _ & _ & H8). pose proof (e_in i ltac:(lia)). pose proof (e_in (S i) ltac:(lia)).
  apply (node_round u eta e rd Hs Hrd); auto; try lra. apply e_gap; auto.
Qed.
Lemma g_weight i j : (i < m)%nat -> (j < n)%nat -> rel (om + 5 * u) (nth (i * n + j) (rw g_rd) 0) (nth (i * n + j) (rw G) 0).
Proof.
  intros Hi Hj. destruct r_len as (L1 & L2 & L3 & L4 & L5 & L6). rewrite (proj2 (G_at i j Hi Hj)). unfold g_rd. cbn [rw].
  rewrite block_at by (auto; intros; cbn; rewrite map_length; auto). cbn [reseat_rd rw]. rewrite (nth_map_in _ _ _ 0 0) by lia. rewrite L5, L6.
  destruct (r_at j Hj) as (_ & H2 & _ & _ & H5 & _). pose proof (e_in i ltac:(lia)). pose proof (e_in (S i) ltac:(lia)).
  eapply rel_le; [apply (scaled_rel u eta e rd Hs Hrd); [apply e_gap; auto|lra|exact H2|lra|auto]|]. pose proof (u_small u eta e Hs). lra.
Qed.
Lemma g_forward i j : (i < m)%nat -> (j < n)%nat -> rel (rho + 6 * u) (nth (i * n + j) (rfw g_rd) 0) (nth (i * n + j) (rx G) 0 - ra G).
Proof.
  intros Hi Hj. destruct r_len as (L1 & L2 & L3 & L4 & L5 & L6). rewrite (proj1 (G_at i j Hi Hj)). unfold g_rd. cbn [rfw].
  rewrite (block_at (fun r => map (fun t => rd (t + rd (ra r - a 0))) (rfw r))) by (auto; intros; cbn; rewrite !map_length; auto).
  cbn [reseat_rd rfw ra]. rewrite map_map. rewrite (nth_map_in _ _ _ 0 0) by lia. rewrite L5, L6.
  destruct (r_at j Hj) as (_ & _ & H3 & _ & _ & H6 & _). pose proof (e_in i ltac:(lia)). pose proof (e_in (S i) ltac:(lia)).
  rewrite (proj1 G_ends).
  replace ((a (S i) - a i) / 2 * nth j (rx q) 0 + (a (S i) + a i) / 2 - a 0) with ((1 + nth j (rx q) 0) * ((a (S i) - a i) / 2) + (a i - a 0)) by field.
  apply (joined_rel u eta e rd Hs Hrd); [apply e_gap; auto|lra|exact H3|lra|auto|]. pose proof (e_mono 0 i ltac:(lia) ltac:(lia)). lra.
Qed.
Lemma g_backward i j : (i < m)%nat -> (j < n)%nat -> rel (rho + 6 * u) (nth (i * n + j) (rbw g_rd) 0) (rb G - nth (i * n + j) (rx G) 0).
Proof.
  intros Hi Hj. destruct r_len as (L1 & L2 & L3 & L4 & L5 & L6). rewrite (proj1 (G_at i j Hi Hj)). unfold g_rd. cbn [rbw].
  rewrite (block_at (fun r => map (fun t => rd (t + rd (a m - rb r))) (rbw r))) by (auto; intros; cbn; rewrite !map_length; auto).
  cbn [reseat_rd rbw rb]. rewrite map_map. rewrite (nth_map_in _ _ _ 0 0) by lia. rewrite L5, L6.
  destruct (r_at j Hj) as (_ & _ & _ & H4 & _ & _ & H7 & _). pose proof (e_in i ltac:(lia)). pose proof (e_in (S i) ltac:(lia)).
  rewrite (proj2 G_ends).
  replace (a m - ((a (S i) - a i) / 2 * nth j (rx q) 0 + (a (S i) + a i) / 2)) with ((1 - nth j (rx q) 0) * ((a (S i) - a i) / 2) + (a m - a (S i))) by field.
  apply (joined_rel u eta e rd Hs Hrd); [apply e_gap; auto|lra|exact H4|lra|auto|]. pose proof (e_mono (S i) m ltac:(lia) ltac:(lia)). lra.
Qed.

Lemma split_index p : (p < m * n)%nat -> exists i j, (i < m)%nat /\ (j < n)%nat /\ p = (i * n + j)%nat.
Proof.
  intros Hp. destruct q_len as (Hn & _). exists (p / n)%nat, (p mod n)%nat. split; [apply Nat.div_lt_upper_bound; lia|].
  split; [apply Nat.mod_upper_bound; lia|]. rewrite (Nat.div_mod p n) at 1 by lia. lia.
Qed.

Lemma piecewise_round : exists g, piecewise_rd rd r segs = Ok g /\ rule_near (sg + 7 * u) (om + 5 * u) (rho + 6 * u) g G /\
  forall i j, (i < m)%nat -> (j < n)%nat ->
    Rabs (nth (i * n + j) (rx g) 0 - nth (i * n + j) (rx G) 0) <= (sg + 7 * u) * Rmax (Rabs (a i)) (Rabs (a (S i))).
Proof.
  exists g_rd. split; [apply g_rd_ok|]. split; [|exact g_node]. destruct r_len as (L1 & L2 & L3 & L4 & L5 & L6). destruct G_len as (GL1 & GL2). destruct G_ends as (E1 & E2).
  split; [rewrite E1; reflexivity|]. split; [rewrite E2; reflexivity|]. rewrite GL1, GL2. unfold g_rd at 1 2 3 4. cbn [rx rw rfw rbw].
  split; [apply block_len; intros; cbn; rewrite map_length; auto|]. split; [apply block_len; intros; cbn; rewrite map_length; auto|].
  split; [apply (block_len (fun r => map (fun t => rd (t + rd (ra r - a 0))) (rfw r))); intros; cbn; rewrite !map_length; auto|].
  split; [apply (block_len (fun r => map (fun t => rd (t + rd (a m - rb r))) (rbw r))); intros; cbn; rewrite !map_length; auto|].
  intros p Hp. destruct (split_index p Hp) as (i & j & Hi & Hj & ->).
  split; [|split; [apply g_weight; auto|split; [apply g_forward; auto|apply g_backward; auto]]].
  eapply Rle_trans; [apply g_node; auto|]. pose proof (e_in i ltac:(lia)). pose proof (e_in (S i) ltac:(lia)). pose proof (u_small u eta e Hs).
  assert (Rmax (Rabs (a i)) (Rabs (a (S i))) <= 1) by (apply Rmax_lub; apply Rabs_le; lra).
  rewrite <- (Rmult_1_r (sg + 7 * u)) at 2. apply Rmult_le_compat_l; lra.
Qed.
End Rule.
