(** Rounded kernel values through __call__. *)
From Coq Require Import ZArith Bool Reals Lra Lia Psatz.
From Coquelicot Require Import Coquelicot.
From Coq Require Import List.
From Flocq Require Import Core Relative.
From Verif.Model Require Import Base Util Num Gauss IEEE Kernel KernelIEEE.
From Verif.Spec Require Import SKernel SKernelIEEE.
From Verif.Proofs Require RescaleIEEE.
From Verif.Proofs Require Import KernelFacts GaussFacts KernelRound KernelRoundOdd.
Import ListNotations.
Open Scope R_scope.
Notation length := List.length.

Lemma pow_90_200 : 10 ^ 90 <= 10 ^ 200.
Proof. apply Rle_pow; [lra|lia]. Qed.

Lemma size_pos k y : ordinary_cutoff k -> 0 < kernel_size k y.
Proof. destruct k as [lam|lam]; cbn; intros H; [lra|]. pose proof (Rinv_0_lt_compat lam ltac:(lra)). pose proof (Rabs_pos y). lra. Qed.

Lemma logistic_bound lam X y : -1 <= X <= 1 -> 0 <= logistic_formula lam X y <= 1.
Proof.
  intros HX. unfold logistic_formula. set (v := lam * y). replace (- lam * y) with (- v) by (unfold v; ring).
  pose proof (exp_pos (- v)) as P. pose proof (exp_pos (- v * (X + 1) / 2)) as P2.
  split; [apply Rlt_le, Rdiv_lt_0_compat; lra|]. apply Rle_div_l; [lra|].
  destruct (Rle_dec 0 v) as [V|V].
  - assert (exp (- (v * (X + 1) / 2)) <= 1) by (apply exp_neg_le1; assert (0 <= v * (X + 1)) by (apply Rmult_le_pos; lra); lra).
    replace (- v * (X + 1) / 2) with (- (v * (X + 1) / 2)) by field. lra.
  - assert (exp (- v * (X + 1) / 2) <= exp (- v)).
    { destruct (Req_dec X 1) as [->|]; [right; f_equal; field|]. apply Rlt_le, exp_increasing. nra. }
    lra.
Qed.

Lemma bose_bound lam X y : 0 < lam -> -1 <= X <= 1 -> 0 <= (if Req_EM_T y 0 then / lam else bose_formula lam X y) <= / lam + Rabs y.
Proof.
  intros Pl HX. pose proof (Rinv_0_lt_compat _ Pl) as Pc. destruct (Req_EM_T y 0) as [->|Ny]; [rewrite Rabs_R0; lra|].
  unfold bose_formula. set (v := lam * y). replace (- lam * y) with (- v) by (unfold v; ring). replace y with (v * / lam) by (unfold v; field; lra).
  assert (Nv : v <> 0) by (unfold v; apply Rmult_integral_contrapositive_currified; lra).
  rewrite Rabs_mult, (Rabs_right (/ lam)) by lra.
  assert (G : forall a n, 0 < a -> 0 < n <= 1 -> 0 <= / lam * n * (a / (1 - exp (- a))) <= / lam + a * / lam).
  { intros a n Pa Hn. pose proof (gfun_bounds a ltac:(lra)) as B. unfold gfun in B. destruct (Req_EM_T a 0); [lra|].
    set (g := a / (1 - exp (- a))) in *. clearbody g. split; [apply Rmult_le_pos; [apply Rmult_le_pos; lra|lra]|].
    apply Rle_trans with (/ lam * 1 * (1 + a)); [|lra]. apply Rmult_le_compat; try lra. apply Rmult_le_pos; lra. apply Rmult_le_compat_l; lra. }
  destruct (Rle_dec 0 v) as [V|V].
  - rewrite (Rabs_right v) by lra.
    replace (v * / lam * exp (- v * (X + 1) / 2) / (1 - exp (- v))) with (/ lam * exp (- (v * (X + 1) / 2)) * (v / (1 - exp (- v)))).
    + apply G; [lra|]. split; [apply exp_pos|]. apply exp_neg_le1. assert (0 <= v * (X + 1)) by (apply Rmult_le_pos; lra). lra.
    + replace (- v * (X + 1) / 2) with (- (v * (X + 1) / 2)) by field. pose proof (h_pos v ltac:(lra)). field. lra.
  - rewrite (Rabs_left v) by lra.
    replace (v * / lam * exp (- v * (X + 1) / 2) / (1 - exp (- v))) with (/ lam * exp (- (- v * (1 - X) / 2)) * (- v / (1 - exp (- - v)))).
    + apply G; [lra|]. split; [apply exp_pos|]. apply exp_neg_le1. assert (0 <= - v * (1 - X)) by (apply Rmult_le_pos; lra). lra.
    + rewrite Ropp_involutive. replace (exp (- v * (X + 1) / 2)) with (exp (- (- v * (1 - X) / 2)) * exp (- v)) by (rewrite <- exp_plus; f_equal; field).
      set (n := exp (- (- v * (1 - X) / 2))). pose proof (h_pos (- v) ltac:(lra)) as Hh. rewrite Ropp_involutive in Hh. pose proof (exp_pos v). rewrite (exp_Ropp v). field. repeat split; lra.
Qed.

Lemma formula_bound k X y : ordinary_cutoff k -> -1 <= X <= 1 -> 0 <= kernel_formula k X y <= kernel_size k y.
Proof. destruct k as [lam|lam]; cbn [ordinary_cutoff kernel_formula kernel_size]; intros H HX; [apply logistic_bound; auto|apply bose_bound; lra]. Qed.

Section Round.
Variables (u eta e : R) (rd : R -> R) (f : tfun).
Hypothesis Hs : small_errors u eta e.
Hypothesis Hrd : rounding u eta rd.
Hypothesis Hf : tfun_near e eta f.

Definition near_ends (rho X xp xm : R) : Prop :=
  0 <= xp /\ 0 <= xm /\ Rabs (xp - (1 + X)) <= rho * (1 + X) + 20 * eta /\ Rabs (xm - (1 - X)) <= rho * (1 - X) + 20 * eta.

Lemma at_round k x y X xp xm rho : ordinary_cutoff k -> Rabs y <= 1 -> -1 <= X <= 1 -> 0 <= rho <= / 1000 -> near_ends rho X xp xm ->
  Rabs (kernel_at_rd rd f k x y (Some xp) (Some xm) - kernel_formula k X y) <= (51 / 100 * rho + 79 / 10 * u + 203 / 100 * e) * kernel_size k y.
Proof.
  intros Hk Hy HX Hr (P1 & P2 & E1 & E2). pose proof (small u eta e Hs) as (Hu & He & Hn & _). pose proof pow_90_200 as P.
  destruct k as [lam|lam]; unfold kernel_at_rd, compute_uv_rd, k_lambda; cbn [kernel_formula kernel_size].
  - cbn [ordinary_cutoff] in Hk. rewrite Rmult_1_r.
    assert (Hl : Rabs lam * eta <= u / 1000000) by (apply (eta_lam u eta e Hs); rewrite Rabs_right; [eapply Rle_trans; [apply Hk|exact P]|apply Rle_ge, Hk]).
    clear P Hk. eapply Rle_trans; [apply (logistic_round u eta e rd f Hs Hrd Hf lam y X xp xm rho); auto|]. lra.
  - cbn [ordinary_cutoff] in Hk. apply (bose_round u eta e rd f Hs Hrd Hf lam y X xp xm rho); auto. apply Hk. eapply Rle_trans; [apply Hk|exact P].
Qed.

Lemma distances_near rho X xp xm : distances rho eta (-1) X xp xm -> near_ends rho X xp xm.
Proof.
  pose proof (small u eta e Hs) as (_ & _ & Hn & _). intros (A & B & C & D). replace (X - -1) with (1 + X) in C by ring. repeat split; auto; lra.
Qed.

Lemma plain_near x : -1 <= x <= 1 -> near_ends u x (rd (1 + x)) (rd (1 - x)).
Proof.
  pose proof (small u eta e Hs) as (_ & _ & Hn & _). intros H. repeat split; try (apply (rd_pos u eta rd Hrd); lra).
  - pose proof (rd_err_pos u eta rd Hrd (1 + x) ltac:(lra)). lra.
  - pose proof (rd_err_pos u eta rd Hrd (1 - x) ltac:(lra)). lra.
Qed.

Lemma plain_at k x y : ordinary_cutoff k -> Rabs y <= 1 -> -1 <= x <= 1 ->
  Rabs (kernel_at_rd rd f k x y None None - kernel_formula k x y) <= (9 * u + 3 * e) * kernel_size k y.
Proof.
  intros Hk Hy Hx. pose proof (small u eta e Hs) as (Hu & He & Hn & _).
  change (kernel_at_rd rd f k x y None None) with (kernel_at_rd rd f k x y (Some (rd (1 + x))) (Some (rd (1 - x)))).
  eapply Rle_trans; [apply (at_round k x y x _ _ u Hk Hy Hx ltac:(lra) (plain_near x Hx))|].
  apply Rmult_le_compat_r; [apply Rlt_le, size_pos; auto|]. lra.
Qed.

Lemma shifted_near rho X xp xm : 0 <= X <= 1 -> 0 <= rho <= / 2000 -> distances rho eta 0 X xp xm ->
  near_ends (rho + 101 / 100 * u) X (rd (1 + xp)) xm.
Proof.
  pose proof (small u eta e Hs) as (Hu' & _ & Hn & _). pose proof (small_u u eta e Hs) as (Hu & _). intros HX Hr (A & B & C & D). rewrite Rminus_0_r in C.
  pose proof (rd_err_pos u eta rd Hrd (1 + xp) ltac:(lra)) as E.
  repeat split; auto; [apply (rd_pos u eta rd Hrd); lra| |].
  - apply Rabs_le_between in C. apply Rabs_le_between in E. assert (rho * X <= / 2000 * X) by (apply Rmult_le_compat_r; lra).
    assert (u * (1 + xp) <= u * (1 + X + rho * X + 10 * eta)) by (apply Rmult_le_compat_l; lra).
    assert (u * (rho * X) <= u * (/ 2000 * X)) by (apply Rmult_le_compat_l; lra). assert (u * eta <= / 1000 * eta) by (apply Rmult_le_compat_r; lra).
    assert (0 <= u * X) by (apply Rmult_le_pos; lra). apply Rabs_le_between. lra.
  - assert (0 <= u * (1 - X)) by (apply Rmult_le_pos; lra). lra.
Qed.

Lemma reduced_plain_round k sgn c x y X xp xm rho : (sgn = 1 \/ sgn = -1) -> ordinary_cutoff k -> 0 <= y <= 1 -> 0 <= X <= 1 -> 0 <= rho <= / 2000 ->
  distances rho eta 0 X xp xm ->
  Rabs (reduced_plain_at_rd rd f (Reduced k sgn c) x y xp (Some xm) - (kernel_formula k X y + sgn * kernel_formula k X (- y)))
    <= (103 / 100 * rho + 19 * u + 408 / 100 * e) * kernel_size k y.
Proof.
  intros Hsg Hk Hy HX Hr Hd. pose proof (small u eta e Hs) as (Hu' & He & Hn & Hn1 & _). pose proof (small_u u eta e Hs) as (Hu & _).
  pose proof (shifted_near rho X xp xm HX Hr Hd) as Hne. set (rho' := rho + 101 / 100 * u) in *.
  assert (Hr' : 0 <= rho' <= / 1000) by (unfold rho'; lra).
  pose proof (at_round k x y X _ _ rho' Hk ltac:(rewrite Rabs_right; lra) ltac:(lra) Hr' Hne) as A1.
  pose proof (at_round k x (- y) X _ _ rho' Hk ltac:(rewrite Rabs_Ropp, Rabs_right; lra) ltac:(lra) Hr' Hne) as A2.
  assert (SZ : kernel_size k (- y) = kernel_size k y) by (destruct k; cbn; auto; rewrite Rabs_Ropp; reflexivity). rewrite SZ in A2.
  pose proof (formula_bound k X y Hk ltac:(lra)) as B1. pose proof (formula_bound k X (- y) Hk ltac:(lra)) as B2. rewrite SZ in B2. clear SZ.
  pose proof (size_pos k y Hk) as Pz.
  assert (etaz : eta <= u / 1000 * kernel_size k y).
  { destruct k as [lam|lam]; cbn [kernel_size ordinary_cutoff] in *; [lra|]. pose proof (eta_lam u eta e Hs lam) as EL. rewrite Rabs_right in EL by lra.
    specialize (EL ltac:(eapply Rle_trans; [apply Hk|apply pow_90_200])). apply Rle_trans with (u / 1000 * / lam).
    - apply Rmult_le_reg_l with lam; [apply Hk|]. replace (lam * (u / 1000 * / lam)) with (u / 1000) by (field; lra). lra.
    - apply Rmult_le_compat_l; [lra|]. pose proof (Rabs_pos y). lra. }
  unfold reduced_plain_at_rd. cbn [rinner rsign]. set (a := kernel_at_rd _ _ _ _ y _ _) in *. set (b := kernel_at_rd _ _ _ _ (- y) _ _) in *.
  set (Ka := kernel_formula k X y) in *. set (Kb := kernel_formula k X (- y)) in *. set (z := kernel_size k y) in *. clearbody a b Ka Kb z.
  set (B := 51 / 100 * rho' + 79 / 10 * u + 203 / 100 * e) in *.
  assert (HB : 0 <= B <= / 100) by (unfold B; lra).
  assert (G : forall t T, Rabs (t - T) <= 2 * (B * z) -> Rabs T <= 2 * z -> Rabs (rd t - T) <= (103 / 100 * rho + 19 * u + 408 / 100 * e) * z).
  { intros t T H1 H2. pose proof (rd_err u eta rd Hrd t) as R.
    assert (B * z <= / 100 * z) by (apply Rmult_le_compat_r; lra).
    assert (Bt : Rabs t <= 202 / 100 * z). { replace t with (t - T + T) by ring. eapply Rle_trans; [apply Rabs_triang|]. lra. }
    assert (u * Rabs t <= u * (202 / 100 * z)) by (apply Rmult_le_compat_l; lra).
    replace (rd t - T) with (rd t - t + (t - T)) by ring. eapply Rle_trans; [apply Rabs_triang|].
    assert (0 <= u * z) by (apply Rmult_le_pos; lra). assert (0 <= rho * z) by (apply Rmult_le_pos; lra). assert (0 <= e * z) by (apply Rmult_le_pos; lra).
    unfold B, rho' in *. lra. }
  unfold Reqb. destruct Hsg as [-> | ->]; destruct (Req_EM_T _ 1) as [E|E]; try lra; apply G.
  - replace (a + b - (Ka + 1 * Kb)) with ((a - Ka) + (b - Kb)) by ring. eapply Rle_trans; [apply Rabs_triang|]. lra.
  - apply Rabs_le_between. lra.
  - replace (a - b - (Ka + -1 * Kb)) with ((a - Ka) + - (b - Kb)) by ring. eapply Rle_trans; [apply Rabs_triang|]. rewrite Rabs_Ropp. lra.
  - apply Rabs_le_between. lra.
Qed.

Lemma reduced_round k sgn x y X xp xm rho sg : (sgn = 1 \/ sgn = -1) -> ordinary_cutoff k -> 0 <= x <= 1 -> 0 <= y <= 1 -> 0 <= X <= 1 -> 0 <= rho <= / 2000 ->
  distances rho eta 0 X xp xm -> Rabs (x - X) <= sg -> sg <= / 10000 ->
  Rabs (reduced_at_rd rd f (Reduced k sgn (Reqb sgn (-1))) x y xp (Some xm) - (kernel_formula k X y + sgn * kernel_formula k X (- y)))
    <= (2 * rho + 3 * sg + 20 * u + 5 * e) * kernel_size k y.
Proof.
  intros Hsg Hk Hx Hy HX Hr Hd Ex Hsg'. pose proof (small u eta e Hs) as (Hu' & He & Hn & Hn1 & _).
  assert (Psg : 0 <= sg) by (eapply Rle_trans; [apply Rabs_pos|exact Ex]). pose proof (size_pos k y Hk) as Pz.
  pose proof (reduced_plain_round k sgn (Reqb sgn (-1)) x y X xp xm rho Hsg Hk Hy HX Hr Hd) as PL.
  assert (PL' : Rabs (reduced_plain_at_rd rd f (Reduced k sgn (Reqb sgn (-1))) x y xp (Some xm) - (kernel_formula k X y + sgn * kernel_formula k X (- y)))
    <= (2 * rho + 3 * sg + 20 * u + 5 * e) * kernel_size k y).
  { eapply Rle_trans; [exact PL|]. apply Rmult_le_compat_r; lra. }
  clear PL. unfold reduced_at_rd. cbn [rclosed rinner]. destruct (Reqb sgn (-1)) eqn:Es; [|exact PL'].
  assert (E1 : sgn = -1). { unfold Reqb in Es. destruct (Req_EM_T sgn (-1)); [auto|discriminate]. }
  subst sgn. clear Hsg. destruct k as [lam|lam]; cbn [ordinary_cutoff] in Hk.
  - unfold logistic_odd_fix_rd. destruct (Rltb_spec (rd (x * rd (rd (lam / 2) * y))) 1) as [S1|S1]; cbn [andb]; [|exact PL'].
    destruct (Rltb_spec (rd (rd (lam / 2) * y)) 85) as [S2|S2]; [|exact PL']. cbn [kernel_formula kernel_size].
    replace (logistic_formula lam X y + -1 * logistic_formula lam X (- y)) with (logistic_formula lam X y - logistic_formula lam X (- y)) by ring.
    eapply Rle_trans; [apply (logistic_odd_round u eta e rd f Hs Hrd Hf lam x y X sg); auto; lra|]. lra.
  - unfold bose_odd_fix_rd. destruct (Rltb_spec (rd (x * rd (rd (lam / 2) * y))) 1) as [S1|S1]; cbn [andb]; [|exact PL'].
    destruct (Rltb_spec (rd (/ 10 ^ 200)) (rd (rd (lam / 2) * y))) as [S3|S3]; cbn [andb]; [|exact PL'].
    destruct (Rltb_spec (rd (rd (lam / 2) * y)) 85) as [S2|S2]; [|exact PL'].
    destruct (bose_odd_round u eta e rd f Hs Hrd Hf lam x y X sg ltac:(apply Hk) ltac:(apply Hk) Hy Hx HX Ex Hsg' S1 S3 S2) as [Py Q].
    cbn [kernel_formula kernel_size] in *. destruct (Req_EM_T y 0) as [Z|_]; [lra|]. destruct (Req_EM_T (- y) 0) as [Z|_]; [lra|].
    replace (bose_formula lam X y + -1 * bose_formula lam X (- y)) with (bose_formula lam X y - bose_formula lam X (- y)) by ring.
    eapply Rle_trans; [exact Q|]. rewrite (Rabs_right y) in * by lra. apply Rmult_le_compat_r; lra.
Qed.
End Round.

(** * Arrays *)
Lemma call_rd_exact f k x y xp xm : kernel_call_rd (fun t => t) f k x y xp xm = kernel_call f k x y xp xm.
Proof. unfold kernel_call_rd, kernel_call. destruct (check_domain (-1) 1 x y); [|reflexivity]. cbn [bind]. f_equal. Qed.
Lemma reduced_call_rd_exact f r x y xp xm : reduced_call_rd (fun t => t) f r x y xp xm = reduced_call f r x y xp xm.
Proof.
  unfold reduced_call_rd, reduced_call. destruct (check_domain 0 1 x y); [|reflexivity]. cbn [bind]. destruct xp as [xp|]; [|reflexivity]. f_equal.
Qed.
Lemma call_rd_raises rd f k x y xp xm ex : kernel_call_rd rd f k x y xp xm = Raise ex <-> kernel_call f k x y xp xm = Raise ex.
Proof. unfold kernel_call_rd, kernel_call. destruct (check_domain (-1) 1 x y); cbn [bind]; split; intros H; congruence. Qed.
Lemma reduced_call_rd_raises rd f r x y xp xm ex : reduced_call_rd rd f r x y xp xm = Raise ex <-> reduced_call f r x y xp xm = Raise ex.
Proof. unfold reduced_call_rd, reduced_call. destruct (check_domain 0 1 x y); cbn [bind]; [destruct xp|]; split; intros H; congruence. Qed.

Lemma nth_map_seq {A} (g : nat -> A) n i d : (i < n)%nat -> nth i (map g (seq 0 n)) d = g i.
Proof. intros H. rewrite (nth_indep _ d (g 0%nat)) by (rewrite map_length, seq_length; auto). rewrite map_nth, seq_nth by auto. reflexivity. Qed.
Lemma nth_map_lt {A B} (g : A -> B) l i d d' : (i < length l)%nat -> nth i (map g l) d' = g (nth i l d).
Proof. intros H. rewrite (nth_indep _ d' (g d)) by (rewrite map_length; auto). apply map_nth. Qed.

Section Arrays.
Variables (u eta e : R) (rd : R -> R) (f : tfun).
Hypothesis Hs : small_errors u eta e.
Hypothesis Hrd : rounding u eta rd.
Hypothesis Hf : tfun_near e eta f.

Lemma domain_inv lo hi xs ys : (do _ <- check_domain lo hi (map Fin xs) (map Fin ys); Ok tt) = Ok tt ->
  (forall i, (i < length xs)%nat -> lo <= nth i xs 0 <= hi) /\ (forall j, (j < length ys)%nat -> lo <= nth j ys 0 <= hi).
Proof.
  intros H. destruct (check_domain lo hi (map Fin xs) (map Fin ys)) as [[]|] eqn:E; [|discriminate].
  destruct (check_domain_cases lo hi (map Fin xs) (map Fin ys)) as [(_ & xs' & ys' & E1 & E2 & A & B)|[E' _]]; [|congruence].
  apply (f_equal fins) in E1. apply (f_equal fins) in E2. rewrite !fins_map in E1, E2. subst xs' ys'. rewrite Forall_forall in A, B. split; intros i Hi; [apply A|apply B]; apply nth_In; auto.
Qed.

Lemma call_round k rho xs ys X xp xm M : ordinary_cutoff k -> 0 <= rho <= / 1000 ->
  kernel_call_rd rd f k (map Fin xs) (map Fin ys) (Some xp) (Some xm) = Ok M ->
  (forall i, (i < length xs)%nat -> -1 <= X i <= 1 /\ distances rho eta (-1) (X i) (nth i xp 0) (nth i xm 0)) ->
  forall i j, (i < length xs)%nat -> (j < length ys)%nat ->
  Rabs (nth j (nth i M []) 0 - kernel_formula k (X i) (nth j ys 0)) <= (rho + 8 * u + 3 * e) * kernel_size k (nth j ys 0).
Proof.
  intros Hk Hr HM HX i j Hi Hj. unfold kernel_call_rd in HM.
  destruct (check_domain (-1) 1 (map Fin xs) (map Fin ys)) as [[]|] eqn:E; [|discriminate]. cbn [bind] in HM. injection HM as <-.
  destruct (domain_inv (-1) 1 xs ys) as [_ D]; [rewrite E; reflexivity|]. specialize (D j Hj).
  rewrite map_length, nth_map_seq by auto. rewrite !fins_map. rewrite (nth_map_lt _ ys j 0) by auto. cbn [at_row].
  destruct (HX i Hi) as [H1 H2]. pose proof (small u eta e Hs) as (Hu & He & _).
  eapply Rle_trans; [apply (at_round u eta e rd f Hs Hrd Hf k _ _ (X i) _ _ rho Hk); auto|].
  - apply Rabs_le_between. lra.
  - apply (distances_near u eta e Hs). exact H2.
  - apply Rmult_le_compat_r; [apply Rlt_le, size_pos; auto|lra].
Qed.

Lemma points_round k xs ys M : ordinary_cutoff k ->
  kernel_call_rd rd f k (map Fin xs) (map Fin ys) None None = Ok M ->
  forall i j, (i < length xs)%nat -> (j < length ys)%nat ->
  Rabs (nth j (nth i M []) 0 - kernel_formula k (nth i xs 0) (nth j ys 0)) <= (9 * u + 3 * e) * kernel_size k (nth j ys 0).
Proof.
  intros Hk HM i j Hi Hj. unfold kernel_call_rd in HM.
  destruct (check_domain (-1) 1 (map Fin xs) (map Fin ys)) as [[]|] eqn:E; [|discriminate]. cbn [bind] in HM. injection HM as <-.
  destruct (domain_inv (-1) 1 xs ys) as [C D]; [rewrite E; reflexivity|]. specialize (D j Hj). specialize (C i Hi).
  rewrite map_length, nth_map_seq by auto. rewrite !fins_map. rewrite (nth_map_lt _ ys j 0) by auto. cbn [at_row].
  apply (plain_at u eta e rd f Hs Hrd Hf); auto. apply Rabs_le_between. lra.
Qed.

Lemma reduced_call_round k sgn r rho sg xs ys X xp xm M : (sgn = 1 \/ sgn = -1) -> get_symmetrized k sgn = Ok r ->
  ordinary_cutoff k -> 0 <= rho <= / 2000 -> sg <= / 10000 ->
  reduced_call_rd rd f r (map Fin xs) (map Fin ys) (Some xp) (Some xm) = Ok M ->
  (forall i, (i < length xs)%nat -> 0 <= X i <= 1 /\ Rabs (nth i xs 0 - X i) <= sg /\ distances rho eta 0 (X i) (nth i xp 0) (nth i xm 0)) ->
  forall i j, (i < length xs)%nat -> (j < length ys)%nat ->
  Rabs (nth j (nth i M []) 0 - (kernel_formula k (X i) (nth j ys 0) + sgn * kernel_formula k (X i) (- nth j ys 0)))
    <= (2 * rho + 3 * sg + 20 * u + 5 * e) * kernel_size k (nth j ys 0).
Proof.
  intros Hsgn Hr Hk Hrho Hsg HM HX i j Hi Hj.
  assert (Er : r = Reduced k sgn (Reqb sgn (-1))).
  { unfold get_symmetrized, reduced_init in Hr. destruct (Reqb sgn (-1)); destruct (Reqb (Rabs sgn) 1); congruence. }
  subst r. clear Hr. unfold reduced_call_rd in HM.
  destruct (check_domain 0 1 (map Fin xs) (map Fin ys)) as [[]|] eqn:E; [|discriminate]. cbn [bind] in HM. injection HM as <-.
  destruct (domain_inv 0 1 xs ys) as [C D]; [rewrite E; reflexivity|]. specialize (D j Hj). specialize (C i Hi).
  rewrite map_length, nth_map_seq by auto. rewrite !fins_map. rewrite (nth_map_lt _ ys j 0) by auto. cbn [at_row].
  destruct (HX i Hi) as (H1 & H2 & H3). apply (reduced_round u eta e rd f Hs Hrd Hf); auto.
Qed.
End Arrays.

(** * Doubles *)
Definition eta64 : R := bpow radix2 (-1075).
Lemma rounding_double : rounding (/ 2 ^ 53) eta64 rnd64.
Proof.
  split; [|split].
  - intros x. destruct (error_N_FLT radix2 (-1074) 53 ltac:(lia) (fun x => negb (Z.even x)) x) as (d & t & Hd & Ht & _ & E).
    unfold rnd64, fexp64. rewrite E. replace (x * (1 + d) + t - x) with (x * d + t) by ring. eapply Rle_trans; [apply Rabs_triang|].
    rewrite Rabs_mult. assert (U : / 2 * bpow radix2 (- (53) + 1) = / 2 ^ 53).
    { change (- (53) + 1)%Z with (- (52))%Z. rewrite RescaleIEEE.bp by lia. change (Z.to_nat 52) with 52%nat. rewrite <- Rinv_mult. f_equal. }
    assert (T : / 2 * bpow radix2 (-1074) = eta64).
    { unfold eta64. change (-1075)%Z with (-1 + -1074)%Z. rewrite bpow_plus. f_equal. }
    rewrite U in Hd. rewrite T in Ht. rewrite (Rmult_comm (Rabs x)). apply Rplus_le_compat; [apply Rmult_le_compat_r; [apply Rabs_pos|auto]|auto].
  - intros x Hx. unfold rnd64. rewrite <- (round_0 radix2 fexp64 ZnearestE). apply round_le; auto. apply FLT_exp_valid. reflexivity. apply valid_rnd_N.
  - intros x Hx. unfold rnd64. rewrite <- (round_0 radix2 fexp64 ZnearestE). apply round_le; auto. apply FLT_exp_valid. reflexivity. apply valid_rnd_N.
Qed.

Lemma ten_300 : 10 ^ 300 <= 2 ^ 1000.
Proof.
  replace (10 ^ 300) with ((10 ^ 3) ^ 100) by (rewrite <- pow_mult; f_equal). replace (2 ^ 1000) with ((2 ^ 10) ^ 100) by (rewrite <- pow_mult; f_equal).
  apply pow_incr. lra.
Qed.

Lemma small_double e : 0 <= e <= / 1000 -> small_errors (/ 2 ^ 53) eta64 e.
Proof.
  intros He. split; [|split; [exact He|split; [apply bpow_ge_0|]]].
  - split; [|lra]. apply Rinv_le_contravar; [apply pow_lt; lra|]. apply Rle_trans with (10 ^ 53); [apply pow_incr; lra|apply Rle_pow; [lra|lia]].
  - unfold eta64. change (-1075)%Z with (- (1000) + (- (75)))%Z. rewrite bpow_plus. rewrite (RescaleIEEE.bp 1000), (RescaleIEEE.bp 75) by lia.
    replace (Z.to_nat 1000) with 1000%nat by reflexivity. change (Z.to_nat 75) with 75%nat. pose proof ten_300 as T.
    assert (P : 0 < 2 ^ 1000) by (apply pow_lt; lra). set (A := 2 ^ 1000) in *. set (B := 10 ^ 300) in *. clearbody A B.
    apply Rle_trans with (/ 2 ^ 75). 2:{ lra. }
    assert (P75 : 0 < / 2 ^ 75) by (apply Rinv_0_lt_compat, pow_lt; lra). set (C := / 2 ^ 75) in *. clearbody C.
    replace (/ A * C * B) with (C * (B / A)) by (field; lra). assert (B / A <= 1) by (apply Rle_div_l; lra). nra.
Qed.

(** correctly rounded elementary functions *)
Definition tfun64 : tfun := TFun (fun x => rnd64 (exp x)) (fun x => rnd64 (exp x - 1)) (fun x => rnd64 (sinh x)) (fun x => rnd64 (cosh x)).
Lemma tfun64_near : tfun_near (/ 2 ^ 53) eta64 tfun64.
Proof. destruct rounding_double as (A & _). repeat split; intros x _; apply A. Qed.

Lemma logistic_doubles f lam x y r : tfun_near (/ 2 ^ 52) eta64 f -> 0 <= lam <= 10 ^ 90 ->
  kernel_call_rd rnd64 f (Logistic lam) [Fin x] [Fin y] None None = Ok [[r]] ->
  Rabs (r - logistic_formula lam x y) <= / 2 ^ 49.
Proof.
  intros Hf Hl H. assert (S : small_errors (/ 2 ^ 53) eta64 (/ 2 ^ 52)) by (apply small_double; clear; split; lra).
  pose proof (points_round (/ 2 ^ 53) eta64 (/ 2 ^ 52) rnd64 f S rounding_double Hf (Logistic lam) [x] [y] [[r]] Hl H 0%nat 0%nat
    ltac:(cbn; lia) ltac:(cbn; lia)) as E. cbn [nth kernel_formula kernel_size] in E. clear - E.
  eapply Rle_trans; [exact E|]. clear E. lra.
Qed.

Lemma ten_le k : 0 < k <= 1000 -> k <= 10 ^ 90.
Proof. intros H. apply Rle_trans with (10 ^ 3); [lra|apply Rle_pow; [lra|lia]]. Qed.

Lemma round_example : ordinary_cutoff (Logistic 1000) /\ ordinary_cutoff (RegBose 1000) /\
  (exists r, kernel_call_rd rnd64 tfun64 (Logistic 1000) [Fin (/ 4)] [Fin (- / 2)] None None = Ok [[r]]) /\
  (exists r, kernel_call_rd rnd64 tfun64 (RegBose 1000) [Fin (/ 4)] [Fin (- / 2)] (Some [5 / 4]) (Some [3 / 4]) = Ok [[r]]) /\
  distances 0 eta64 (-1) (/ 4) (5 / 4) (3 / 4) /\
  (exists k, get_symmetrized (RegBose 1000) (-1) = Ok k /\
     exists r, reduced_call_rd rnd64 tfun64 k [Fin (/ 4)] [Fin (/ 2)] (Some [/ 4]) (Some [3 / 4]) = Ok [[r]]) /\
  distances 0 eta64 0 (/ 4) (/ 4) (3 / 4).
Proof.
  assert (P : 0 <= eta64) by apply bpow_ge_0.
  assert (D1 : check_domain (-1) 1 (map Fin [/ 4]) (map Fin [- / 2]) = Ok tt) by (apply check_domain_ok; repeat constructor; lra).
  assert (D2 : check_domain 0 1 (map Fin [/ 4]) (map Fin [/ 2]) = Ok tt) by (apply check_domain_ok; repeat constructor; lra).
  cbn [map] in D1, D2.
  split; [split; [lra|apply ten_le; lra]|]. split; [split; [lra|apply ten_le; lra]|].
  split; [eexists; unfold kernel_call_rd; rewrite D1; reflexivity|].
  split; [eexists; unfold kernel_call_rd; rewrite D1; reflexivity|].
  split. { repeat split; try lra; apply Rabs_le_between; lra. }
  split. { exists (Reduced (RegBose 1000) (-1) true). split.
    - unfold get_symmetrized, reduced_init, Reqb. destruct (Req_EM_T (-1) (-1)); [|lra]. destruct (Req_EM_T (Rabs (-1)) 1) as [|N]; [reflexivity|].
      exfalso. apply N. rewrite Rabs_left; lra.
    - eexists. unfold reduced_call_rd. rewrite D2. reflexivity. }
  repeat split; try lra; apply Rabs_le_between; lra.
Qed.
