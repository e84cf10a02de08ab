(** Rounded quadrature rules and matrices: exact arithmetic, returned values,
    segments around 0, and an example (C89). *)
From Coq Require Import ZArith Bool Reals Lra Lia Arith.
From Flocq Require Import Core.
From Coquelicot Require Import Coquelicot.
From Coq Require Import List Sorting.Sorted.
From Verif.Model Require Import Base Util Num Gauss IEEE Kernel KernelIEEE GaussIEEE Compute.
From Verif.Spec Require Import SGauss SCompute SKernel SKernelIEEE SGaussIEEE.
From Verif.Proofs Require Import KernelFacts GaussFacts ComputeNodes ComputePost ComputeNonempty KernelRound KernelRoundCall ComputeCase GaussRound GaussRoundRule MatrixRound.
Import ListNotations.
Open Scope R_scope.
Notation length := List.length.

(** * Exact arithmetic *)
Lemma join_parts_exact a b p rs : join_parts_rd (fun t => t) a b p rs = join_parts a b p rs.
Proof. revert p. induction rs as [|r rs IH]; intros p; cbn; [reflexivity|]. destruct (Reqb (ra r) p); [|reflexivity]. rewrite IH. reflexivity. Qed.
Lemma join_exact rs : join_rd (fun t => t) rs = join rs.
Proof. destruct rs as [|r rs]; [reflexivity|]. unfold join_rd, join. rewrite join_parts_exact. reflexivity. Qed.
Lemma piecewise_exact r edges : piecewise_rd (fun t => t) r edges = piecewise r edges.
Proof. unfold piecewise_rd, piecewise. destruct (forallb _ _); [|reflexivity]. apply join_exact. Qed.
Lemma kernel_matrix_exact f k gx gy : kernel_matrix_rd (fun t => t) f k gx gy = kernel_matrix f k gx gy.
Proof. apply call_rd_exact. Qed.
Lemma reduced_matrix_exact f r gx gy : reduced_matrix_rd (fun t => t) f r gx gy = reduced_matrix f r gx gy.
Proof. apply reduced_call_rd_exact. Qed.
Lemma sampling_exact K eps r sx sy : sk_segs_x K = Ok sx -> sk_segs_y K = Ok sy ->
  sampling_matrix_rd (fun t => t) (sk_matrix K) r sx sy = (do S <- sampling_init (fun _ => Ok r) K eps None; Compute.sampling_matrix S).
Proof.
  intros Hx Hy. unfold sampling_matrix_rd, sampling_init. rewrite Hx, Hy. cbn [bind]. rewrite !piecewise_exact.
  destruct (piecewise r sx) as [gx|]; [|reflexivity]. cbn [bind]. destruct (piecewise r sy) as [gy|]; [|reflexivity]. cbn [bind]. unfold Compute.sampling_matrix. cbn.
  destruct (sk_matrix K gx gy); reflexivity.
Qed.

(** * Exceptions *)
Lemma parts_exn rd a b p rs ex : join_parts_rd rd a b p rs = Raise ex -> ex = ValueError.
Proof.
  revert p. induction rs as [|r rs IH]; intros p; cbn; [discriminate|]. destruct (Reqb (ra r) p); [|intros H; injection H; auto].
  destruct (join_parts_rd rd a b (rb r) rs) eqn:E; cbn; [discriminate|]. intros H. injection H as <-. eapply IH; eauto.
Qed.
Lemma parts_exn0 a b p rs ex : join_parts a b p rs = Raise ex -> ex = ValueError.
Proof. rewrite <- join_parts_exact. apply parts_exn. Qed.
Lemma parts_intervals rd a b p q r s t :
  (exists v, join_parts_rd rd a b p (map2 (reseat_rd rd r) s t) = Ok v) <-> exists v, join_parts a b p (map2 (reseat q) s t) = Ok v.
Proof.
  revert p t. induction s as [|x s IH]; intros p [|y t]; cbn; try (split; eauto; fail).
  destruct (Reqb x p); [|split; intros [v H]; discriminate]. specialize (IH y t).
  destruct (join_parts_rd rd a b y (map2 (reseat_rd rd r) s t)) eqn:E1, (join_parts a b y (map2 (reseat q) s t)) eqn:E2; cbn.
  - split; eauto.
  - destruct IH as [I _]. destruct I as [v I]; [eauto|discriminate].
  - destruct IH as [_ I]. destruct I as [v I]; [eauto|discriminate].
  - split; intros [v H]; discriminate.
Qed.
Lemma last_ends r q rd s t d d' : rb d = rb d' -> rb (last (map2 (reseat_rd rd r) s t) d) = rb (last (map2 (reseat q) s t) d').
Proof.
  intros H. revert t. induction s as [|x s IH]; intros [|y t]; cbn [map2]; auto.
  specialize (IH t). destruct s as [|x' s], t as [|y' t]; cbn [map2] in *; auto.
Qed.
Lemma piecewise_raises rd r q edges ex : piecewise_rd rd r edges = Raise ex <-> piecewise q edges = Raise ex.
Proof.
  unfold piecewise_rd, piecewise. set (s := init edges). set (t := tl edges). destruct (forallb _ _) eqn:F; [|split; auto].
  destruct s as [|x s]; [cbn; split; discriminate|]. destruct t as [|y t]; [cbn; split; discriminate|].
  unfold join_rd, join. cbn [map2]. change (ra (reseat_rd rd r x y)) with x. change (ra (reseat q x y)) with x.
  pose proof (last_ends r q rd (x :: s) (y :: t) (reseat_rd rd r x y) (reseat q x y) eq_refl) as L. cbn [map2] in L. rewrite L. clear L.
  set (b := rb (last (reseat q x y :: map2 (reseat q) s t) (reseat q x y))).
  pose proof (parts_intervals rd x b x q r (x :: s) (y :: t)) as P. cbn [map2] in P.
  destruct (join_parts_rd rd x b x (reseat_rd rd r x y :: map2 (reseat_rd rd r) s t)) eqn:E1; destruct (join_parts x b x (reseat q x y :: map2 (reseat q) s t)) eqn:E2; cbn [bind].
  - split; discriminate.
  - destruct P as [I _]. destruct I as [v I]; [eauto|discriminate].
  - destruct P as [_ I]. destruct I as [v I]; [eauto|discriminate].
  - apply parts_exn in E1. apply parts_exn0 in E2. subst. tauto.
Qed.

(** * Segments that do not contain 0 in their interior *)
Lemma chained_at {A} (P : A -> A -> Prop) l d : chained P l -> forall i, (S i < length l)%nat -> P (nth i l d) (nth (S i) l d).
Proof.
  induction l as [|x [|y l] IH]; intros Hc i Hi; cbn [List.length] in Hi; try lia. destruct Hc as [H1 H2].
  destruct i; [exact H1|]. apply (IH H2). cbn [List.length]. lia.
Qed.
Lemma resolved_away n q segs G d : ordinary_rule n q -> ordinary_edges segs -> piecewise q segs = Ok G ->
  chained (fun a b => 0 <= a \/ b <= 0) segs -> 0 < d ->
  (forall j, (j < n)%nat -> d <= 1 + nth j (rx q) 0 /\ d <= 1 - nth j (rx q) 0) -> resolved n segs G (2 / d).
Proof.
  intros Hq He HG Hz Hd Hn i j Hi Hj. rewrite (proj1 (G_at n q segs G Hq He HG i j ltac:(lia) Hj)).
  pose proof (e_gap segs He i ltac:(lia)) as Hg. pose proof gap_facts as (G1 & _). pose proof (chained_at _ _ 0 Hz i Hi) as Z. cbn in Z. destruct (Hn j Hj) as (N1 & N2).
  set (a := nth i segs 0) in *. set (b := nth (S i) segs 0) in *. set (x := nth j (rx q) 0) in *.
  assert (D : forall t, d * Rmax (Rabs a) (Rabs b) <= 2 * t -> Rmax (Rabs a) (Rabs b) <= 2 / d * t).
  { intros t H. apply Rmult_le_reg_l with d; auto. replace (d * (2 / d * t)) with (2 * t) by (field; lra). exact H. }
  apply D. clear D. destruct Z as [Z|Z].
  - rewrite (Rabs_pos_eq a), (Rabs_pos_eq b), Rmax_right by lra. assert (d * (b - a) <= (1 + x) * (b - a)) by (apply Rmult_le_compat_r; lra).
    assert (d * a <= 2 * a) by (apply Rmult_le_compat_r; lra). pose proof (Rle_abs ((b - a) / 2 * x + (b + a) / 2)). lra.
  - rewrite (Rabs_left1 a), (Rabs_left1 b), Rmax_left by lra. assert (d * (b - a) <= (1 - x) * (b - a)) by (apply Rmult_le_compat_r; lra).
    assert (d * - b <= 2 * - b) by (apply Rmult_le_compat_r; lra). pose proof (Rle_abs (- ((b - a) / 2 * x + (b + a) / 2))) as Q. rewrite Rabs_Ropp in Q. lra.
Qed.
Lemma sorted_chained l : StronglySorted Rlt l -> In 0 l -> chained (fun a b => 0 <= a \/ b <= 0) l.
Proof.
  induction l as [|x [|y l] IH]; intros Hs Hi; cbn; auto. inversion Hs as [|? ? S1 F1]; subst. inversion S1 as [|? ? S2 F2]; subst.
  inversion F1 as [|? ? Hxy Hx]; subst. split.
  - destruct Hi as [->|[->|Hi]]; [lra|lra|]. rewrite Forall_forall in F2. apply F2 in Hi. lra.
  - destruct Hi as [->|Hi]; [|apply IH; auto]. clear - S1 Hxy. revert y S1 Hxy. induction l as [|z l IH]; intros y S H; cbn; auto. inversion S as [|? ? S1 F]; subst.
    inversion F; subst. split; [lra|]. apply IH; auto. lra.
Qed.
Lemma valid_away segs : valid_segments segs -> chained (fun a b => 0 <= a \/ b <= 0) segs.
Proof. intros (Hs & _ & _ & _ & h & _ & Hh). apply sorted_chained; auto. eapply nth_error_In; eauto. Qed.

(** * The calls return *)
Section Returns.
Variables (u eta e : R) (rd : R -> R) (f : tfun).
Hypothesis Hs : small_errors u eta e.
Hypothesis Hrd : rounding u eta rd.
Variables (n : nat) (q r : rule) (sg om rho : R) (sx sy : list R) (GX GY : rule) (k : kernel) (red : reduced).
Hypothesis Hq : ordinary_rule n q.
Hypothesis Hr : rule_near sg om rho r q.
Hypothesis Hm : small_reference u sg om rho.
Hypothesis Hx : ordinary_edges sx.
Hypothesis Hy : ordinary_edges sy.
Hypothesis HX : piecewise q sx = Ok GX.
Hypothesis HY : piecewise q sy = Ok GY.

Lemma near_in lo g G : rule_near (sg + 7 * u) (om + 5 * u) (rho + 6 * u) g G -> Forall (fun x => lo + (sg + 7 * u) <= x <= 1 - (sg + 7 * u)) (rx G) ->
  Forall (fun x => lo <= x <= 1) (rx g).
Proof.
  intros (_ & _ & L & _ & _ & _ & N) F. apply Forall_forall. intros x Hi. destruct (In_nth _ _ 0 Hi) as (i & Hi' & <-). rewrite L in Hi'.
  destruct (N i Hi') as (D & _). rewrite Forall_forall in F. specialize (F _ (nth_In _ 0 Hi')). apply Rabs_le_between in D. lra.
Qed.
Lemma returns_matrix : Forall (fun x => -1 + (sg + 7 * u) <= x <= 1 - (sg + 7 * u)) (rx GX ++ rx GY) ->
  exists M, sampling_matrix_rd rd (kernel_matrix_rd rd f k) r sx sy = Ok M.
Proof.
  intros F. apply Forall_app in F. destruct F as (FX & FY).
  destruct (x_rule u eta e rd Hs Hrd n q r sg om rho sx GX Hq Hr Hm Hx HX) as (gx & PX & NX).
  destruct (x_rule u eta e rd Hs Hrd n q r sg om rho sy GY Hq Hr Hm Hy HY) as (gy & PY & NY).
  unfold sampling_matrix_rd. rewrite PX, PY. cbn [bind]. unfold kernel_matrix_rd, kernel_call_rd. rewrite check_domain_ok by (eapply near_in; eauto). cbn [bind]. eauto.
Qed.
Lemma returns_reduced : Forall (fun x => 0 + (sg + 7 * u) <= x <= 1 - (sg + 7 * u)) (rx GX ++ rx GY) ->
  exists M, sampling_matrix_rd rd (reduced_matrix_rd rd f red) r sx sy = Ok M.
Proof.
  intros F. apply Forall_app in F. destruct F as (FX & FY).
  destruct (x_rule u eta e rd Hs Hrd n q r sg om rho sx GX Hq Hr Hm Hx HX) as (gx & PX & NX).
  destruct (x_rule u eta e rd Hs Hrd n q r sg om rho sy GY Hq Hr Hm Hy HY) as (gy & PY & NY).
  unfold sampling_matrix_rd. rewrite PX, PY. cbn [bind]. unfold reduced_matrix_rd, reduced_call_rd. rewrite check_domain_ok by (eapply near_in; eauto). cbn [bind]. eauto.
Qed.
End Returns.

(** * An example: the one-point rule in doubles *)
Lemma rule_near_refl n q : ordinary_rule n q -> rule_near 0 0 0 q q.
Proof.
  intros (Hg & (F & B) & _). destruct Hg as (_ & L1 & L2 & _). repeat split; auto; try congruence.
  - rewrite F, map_length. reflexivity.
  - rewrite B, map_length. reflexivity.
  - rewrite Rminus_diag_eq, Rabs_R0 by auto. lra.
  - unfold rel. rewrite Rminus_diag_eq, Rabs_R0 by auto. lra.
  - unfold rel. rewrite F. rewrite (nth_map_lt _ (rx q) i 0 0) by auto. rewrite Rminus_diag_eq, Rabs_R0 by auto. lra.
  - unfold rel. rewrite B. rewrite (nth_map_lt _ (rx q) i 0 0) by auto. rewrite Rminus_diag_eq, Rabs_R0 by auto. lra.
Qed.
Lemma gauss1_ordinary : ordinary_rule 1 gauss1.
Proof.
  destruct gauss1_ok as (A & B). split; [exact A|]. split; [exact B|]. intros i Hi. assert (i = 0)%nat as -> by lia. unfold gauss1. cbn [nth rx rw].
  assert (/ 10 ^ 20 <= 1). { apply Rle_trans with (/ 1); [|lra]. apply Rinv_le_contravar; [lra|]. apply pow_R1_Rle. lra. } lra.
Qed.
Lemma gap_le1 c : / 10 <= c -> / 10 ^ 100 <= c.
Proof. intros H. eapply Rle_trans; [|exact H]. apply Rinv_le_contravar; [lra|]. rewrite <- (pow_1 10) at 1. apply Rle_pow; [lra|lia]. Qed.
Lemma edges_full : ordinary_edges [-1; 0; 1].
Proof. split; [cbn; lia|]. split; [repeat constructor; lra|]. cbn [chained]. pose proof (gap_le1 1 ltac:(lra)). repeat split; auto; lra. Qed.
Lemma edges_half : ordinary_edges [0; / 2; 1].
Proof. split; [cbn; lia|]. split; [repeat constructor; lra|]. cbn [chained]. pose proof (gap_le1 (/ 2) ltac:(lra)). repeat split; auto; lra. Qed.
Lemma piecewise_full : piecewise gauss1 [-1; 0; 1] = Ok (Rule [- / 2; / 2] [1; 1] [/ 2; 3 / 2] [3 / 2; / 2] (-1) 1).
Proof.
  unfold piecewise. cbn [init removelast tl map2 forallb]. assert (A : Rltb (-1) 0 = true) by (destruct (Rltb_spec (-1) 0); auto; lra). assert (B : Rltb 0 1 = true) by (destruct (Rltb_spec 0 1); auto; lra).
  rewrite A, B. cbn [andb]. unfold join. cbn [map2 last ra rb reseat rule_init gauss1 join_parts bind rx rw rfw rbw map].
  assert (E : forall t, Reqb t t = true) by (intros t; unfold Reqb; destruct (Req_EM_T t t); auto; lra). rewrite !E. cbn [bind map concat app fst snd]. f_equal. unfold rule_init. f_equal; try (apply (f_equal2 cons); [field|apply (f_equal2 cons); [field|reflexivity]]).
Qed.
Lemma piecewise_half : piecewise gauss1 [0; / 2; 1] = Ok (Rule [/ 4; 3 / 4] [/ 2; / 2] [/ 4; 3 / 4] [3 / 4; / 4] 0 1).
Proof.
  unfold piecewise. cbn [init removelast tl map2 forallb]. assert (A : Rltb 0 (/ 2) = true) by (destruct (Rltb_spec 0 (/ 2)); auto; lra). assert (B : Rltb (/ 2) 1 = true) by (destruct (Rltb_spec (/ 2) 1); auto; lra).
  rewrite A, B. cbn [andb]. unfold join. cbn [map2 last ra rb reseat rule_init gauss1 join_parts bind rx rw rfw rbw map].
  assert (E : forall t, Reqb t t = true) by (intros t; unfold Reqb; destruct (Req_EM_T t t); auto; lra). rewrite !E. cbn [bind map concat app fst snd]. f_equal. unfold rule_init. f_equal; try (apply (f_equal2 cons); [field|apply (f_equal2 cons); [field|reflexivity]]).
Qed.

Lemma small64 : small_reference (/ 2 ^ 53) 0 0 0 /\ small_errors (/ 2 ^ 53) eta64 (/ 2 ^ 53) /\ / 2 ^ 53 <= / 10 ^ 10.
Proof.
  assert (P : / 2 ^ 53 <= / 10 ^ 10). { apply Rinv_le_contravar; [apply pow_lt; lra|]. lra. }
  assert (Q : / 10 ^ 10 <= / 100000) by (apply Rinv_le_contravar; lra). assert (0 < / 2 ^ 53) by (apply Rinv_0_lt_compat, pow_lt; lra). split; [|split; [|exact P]].
  - unfold small_reference. lra.
  - apply small_double. lra.
Qed.
Lemma matrix_example : ordinary_rule 1 gauss1 /\ rule_near 0 0 0 gauss1 gauss1 /\ small_reference (/ 2 ^ 53) 0 0 0 /\
  small_errors (/ 2 ^ 53) eta64 (/ 2 ^ 53) /\ rounding (/ 2 ^ 53) eta64 rnd64 /\ tfun_near (/ 2 ^ 53) eta64 tfun64 /\
  ordinary_edges [-1; 0; 1] /\ ordinary_edges [0; / 2; 1] /\
  (exists G, piecewise gauss1 [-1; 0; 1] = Ok G /\ resolved 1 [-1; 0; 1] G 2 /\
     exists M, sampling_matrix_rd rnd64 (kernel_matrix_rd rnd64 tfun64 (Logistic 1000)) gauss1 [-1; 0; 1] [-1; 0; 1] = Ok M) /\
  (exists G, piecewise gauss1 [0; / 2; 1] = Ok G /\ resolved 1 [0; / 2; 1] G 2 /\
     exists k, get_symmetrized (RegBose 1000) (-1) = Ok k /\
     exists M, sampling_matrix_rd rnd64 (reduced_matrix_rd rnd64 tfun64 k) gauss1 [0; / 2; 1] [0; / 2; 1] = Ok M) /\
  2 * (0 + 7 * / 2 ^ 53) <= / 1000.
Proof.
  pose proof gauss1_ordinary as Hq. pose proof (rule_near_refl 1 gauss1 Hq) as Hr. destruct small64 as (S1 & S2 & S3). pose proof rounding_double as Rd. pose proof edges_full as Ef. pose proof edges_half as Eh.
  assert (T : / 10 ^ 10 <= / 100000) by (apply Rinv_le_contravar; lra).
  assert (N : forall j, (j < 1)%nat -> 1 <= 1 + nth j (rx gauss1) 0 /\ 1 <= 1 - nth j (rx gauss1) 0).
  { intros j Hj. assert (j = 0)%nat as -> by lia. unfold gauss1. cbn [nth rx]. lra. }
  assert (D : 2 = 2 / 1) by field.
  split; [exact Hq|]. split; [exact Hr|]. split; [exact S1|]. split; [exact S2|]. split; [exact Rd|]. split; [exact tfun64_near|]. split; [exact Ef|]. split; [exact Eh|].
  set (u := / 2 ^ 53) in *. clearbody u. split; [|split].
  - eexists. split; [exact piecewise_full|]. split.
    + refine (eq_ind_r (resolved 1 _ _) _ D). refine (resolved_away 1 gauss1 _ _ 1 Hq Ef piecewise_full _ _ N); [cbn [chained]; split; [right; lra|split; [left; lra|exact I]]|lra].
    + apply (returns_matrix u eta64 u rnd64 tfun64 S2 Rd 1 gauss1 gauss1 0 0 0 _ _ _ _ (Logistic 1000) Hq Hr S1 Ef Ef piecewise_full piecewise_full).
      cbn [rx app]. repeat constructor; lra.
  - eexists. split; [exact piecewise_half|]. split.
    + refine (eq_ind_r (resolved 1 _ _) _ D). refine (resolved_away 1 gauss1 _ _ 1 Hq Eh piecewise_half _ _ N); [cbn [chained]; split; [left; lra|split; [left; lra|exact I]]|lra].
    + eexists. split.
      * unfold get_symmetrized, reduced_init. assert (E : Reqb (Rabs (-1)) 1 = true) by (unfold Reqb; destruct (Req_EM_T (Rabs (-1)) 1) as [|X]; auto; exfalso; apply X; rewrite Rabs_left; lra).
        assert (E' : Reqb (-1) (-1) = true) by (unfold Reqb; destruct (Req_EM_T (-1) (-1)); auto; lra). rewrite ?E, ?E'. rewrite ?E. reflexivity.
      * apply (returns_reduced u eta64 u rnd64 tfun64 S2 Rd 1 gauss1 gauss1 0 0 0 _ _ _ _ _ Hq Hr S1 Eh Eh piecewise_half piecewise_half).
        cbn [rx app]. repeat constructor; lra.
  - lra.
Qed.
