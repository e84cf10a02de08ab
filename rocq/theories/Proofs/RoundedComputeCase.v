(** A concrete case of sve.compute in doubles (C96). *)
From Coq Require Import String ZArith Bool Reals Lra Lia Arith.
From Coquelicot Require Import Coquelicot.
From Coq Require Import List Sorting.Sorted.
From Verif.Model Require Import Base Util IEEE Num Gauss Poly PolyIEEE SVE Basis Kernel KernelIEEE GaussIEEE Compute SVEIEEE.
From Verif.Spec Require Import SGauss SPoly SBasis SFT SSVE SCompute SKernel SSingular SWhole SNear SComputed SKernelIEEE SGaussIEEE SRounded SSVEIEEE SRoundedCompute.
From Verif.Proofs Require Import BaseFacts SumFacts LegFacts KernelFacts KernelProps KernelSegs GaussFacts IEEEFacts SVEFacts ComputeNodes ComputePost ComputeFull ComputeDefined ComputeCase NearBest ComputedSVD
  KernelRound KernelRoundCall GaussRound GaussRoundRule MatrixRound MatrixRoundMore SegmentGaps RoundedSVE RoundedCase CoefFun PostRound ComputeRound ComputeRoundSymm RoundedReturns.
Import ListNotations.
Open Scope R_scope.
Notation length := List.length.
Arguments legP : simpl never.

(** The decomposition of a matrix with one row of two entries. *)
Definition two_svd (alg : svd_alg) (A : matrix) (h : Z) : usv :=
  let a := ment A 0 0 in let b := ment A 0 1 in let s := sqrt (a * a + b * b) in
  if Reqb s 0 then ([[1]], [0], [[1; 0]]) else ([[1]], [s], [[a / s; b / s]]).
Lemma two_svd_shape alg A h : usv_shaped (two_svd alg A h).
Proof.
  unfold two_svd, usv_shaped. cbv zeta. destruct (Reqb _ _); cbn [length]; (split; [auto|]; split; [auto|]; split; [discriminate|]; split; [repeat constructor|]; constructor; [|constructor]); [lra|apply sqrt_pos].
Qed.
Lemma two_svd_near alg A h : near_svd 1 2 A (two_svd alg A h) 0.
Proof.
  split; [lra|]. split; [|split; [apply shape_ordered, two_svd_shape|]]; unfold two_svd; cbv zeta; set (a := ment A 0 0); set (b := ment A 0 1);
    assert (P : 0 <= a * a + b * b) by nra; pose proof (sqrt_sqrt _ P) as Q; pose proof (sqrt_pos (a * a + b * b)) as Q0; set (s := sqrt (a * a + b * b)) in *; unfold Reqb; destruct (Req_EM_T s 0) as [E|E].
  - cbn [orthonormal_usv]. do 4 (split; [repeat constructor|]). split; intros l m Hl Hm; cbn in Hl, Hm; assert (l = 0%nat) as -> by lia; assert (m = 0%nat) as -> by lia; cbn; unfold SCompute.dot, rsum; cbn; lra.
  - cbn [orthonormal_usv]. do 4 (split; [repeat constructor|]). split; intros l m Hl Hm; cbn in Hl, Hm; assert (l = 0%nat) as -> by lia; assert (m = 0%nat) as -> by lia; cbn; unfold SCompute.dot, rsum; cbn; [lra|].
    transitivity ((a * a + b * b) / (s * s)); [field; auto|]. rewrite <- Q. field. auto.
  - rewrite E in Q. unfold usv_entry. cbn [sumn length nth]. fold a b. assert (a = 0 /\ b = 0) as [-> ->] by nra. unfold Rsqr. lra.
  - unfold usv_entry. cbn [sumn length nth]. fold a b. replace (a - (0 + 1 * s * (a / s))) with 0 by (field; auto). replace (b - (0 + 1 * s * (b / s))) with 0 by (field; auto). unfold Rsqr. lra.
Qed.

(** * The functions do not vanish at 1 *)
Lemma far_from_zero x : / 10 <= Rabs x -> 9 / 10 * Rabs x <= Rabs (rnd64 x).
Proof.
  intros Hx. destruct rounding_double as (H & _). specialize (H x). destruct small64 as (_ & _ & P).
  assert (T : / 10 ^ 10 <= / 1000) by (apply Rinv_le_contravar; lra).
  assert (E : eta64 <= / 1000). { unfold eta64. apply Rle_trans with (Flocq.Core.Raux.bpow Flocq.Core.Zaux.radix2 (-10)); [apply Flocq.Core.Raux.bpow_le; lia|]. cbn. lra. }
  set (u := / 2 ^ 53) in *. clearbody u. set (eta := eta64) in *. clearbody eta.
  pose proof (Rabs_triang (rnd64 x) (x - rnd64 x)) as A. replace (rnd64 x + (x - rnd64 x)) with x in A by ring. rewrite (Rabs_minus_sym x) in A.
  assert (u * Rabs x <= / 1000 * Rabs x) by (apply Rmult_le_compat_r; [apply Rabs_pos|lra]). lra.
Qed.
Lemma rnd_zero : rnd64 0 = 0.
Proof. apply rnd64_id, double_0. Qed.

Lemma piece_nonzero old g c i xt : glen g = 1%nat -> nth i (gdx g) 0 = rnd64 1 -> / 5 <= Rabs (cdat c 0 i) -> piece_rd old rnd64 g c i xt <> 0.
Proof.
  intros Hn Hd Hc Z. assert (B : 0 < Rabs (piece_rd old rnd64 g c i xt)); [|rewrite Z, Rabs_R0 in B; lra]. clear Z. unfold piece_rd, gnorm_rd, ginv_rd. rewrite Hn, Hd. cbn [legval_rd].
  rewrite Rmult_0_l, rnd_zero, Rplus_0_r. pose proof (far_from_zero (cdat c 0 i) ltac:(lra)) as F1.
  pose proof rounding_double as (Rd & Rp & _).
  assert (N1 : 9 / 10 <= rnd64 1 <= 11 / 10).
  { split; [pose proof (far_from_zero 1 ltac:(rewrite Rabs_R1; lra)) as F; rewrite Rabs_R1, Rabs_pos_eq in F by (apply Rp; lra); lra|].
    specialize (Rd 1). rewrite Rabs_R1 in Rd. destruct small64 as (_ & _ & P). assert (T : / 10 ^ 10 <= / 1000) by (apply Rinv_le_contravar; lra).
    assert (E : eta64 <= / 1000). { unfold eta64. apply Rle_trans with (Flocq.Core.Raux.bpow Flocq.Core.Zaux.radix2 (-10)); [apply Flocq.Core.Raux.bpow_le; lia|]. cbn. lra. }
    set (u := / 2 ^ 53) in *. clearbody u. apply Rabs_le_between in Rd. lra. }
  assert (N2 : 1 <= 2 / rnd64 1). { apply Rle_div_r; lra. }
  assert (N3 : 9 / 10 <= rnd64 (2 / rnd64 1)). { pose proof (far_from_zero (2 / rnd64 1) ltac:(rewrite Rabs_pos_eq; lra)) as F. rewrite (Rabs_pos_eq (2 / rnd64 1)) in F by lra. rewrite Rabs_pos_eq in F by (apply Rp; lra). lra. }
  assert (N4 : 8 / 10 <= sqrt (rnd64 (2 / rnd64 1))). { rewrite <- (sqrt_Rsqr (8 / 10)) by lra. apply sqrt_le_1_alt. unfold Rsqr. lra. }
  pose proof (far_from_zero (sqrt (rnd64 (2 / rnd64 1))) ltac:(rewrite Rabs_pos_eq; lra)) as F2. rewrite (Rabs_pos_eq (sqrt _)) in F2 by lra.
  set (a := rnd64 (cdat c 0 i)) in *. set (b := rnd64 (sqrt _)) in *.
  assert (N5 : / 10 <= Rabs (a * b)). { rewrite Rabs_mult. assert (18 / 100 * (72 / 100) <= Rabs a * Rabs b) by (apply Rmult_le_compat; lra). lra. }
  pose proof (far_from_zero _ N5). lra.
Qed.

Notation dot64 := (fun _ _ _ => chained_dot rnd64).
Lemma case_nonzero old segs G g us u ys (m := length segs) : ordinary_edges segs -> (m = 2%nat /\ segs = [0; 1] \/ m = 3%nat /\ segs = [-1; 0; 1]) ->
  piecewise gauss1 segs = Ok G -> piecewise_rd rnd64 gauss1 segs = Ok g ->
  Forall (fun v => length v = (m - 1)%nat /\ 2 / 5 <= Rabs (collocate 1 gauss1 segs (sqrtw G) v 0 (m - 2)) /\ Rabs (nth (m - 2) v 0) <= 1) us ->
  poly_init_rd rnd64 1 (m - 1) (columns_rd rnd64 rnd64 dot64 1 gauss1 segs (sqrtw_rd rnd64 g) us) segs None = Ok u ->
  vcall_rd old rnd64 u 1 = Ok ys -> Forall (fun y => y <> 0) ys.
Proof.
  intros Ho Hc HG Hg Hv Hu Hy. destruct (made_cols _ _ _ _ _ _ _ _ _ _ Hu) as [ML MC].
  pose proof (poly_init_rd_inv _ _ _ _ _ _ _ Hu) as (_ & D & K & L & _ & N & _).
  assert (Sg : segment (vgeom u) 1 = (m - 2)%nat /\ nth (m - 2) (gdx (vgeom u)) 0 = rnd64 1 /\ (2 <= m)%nat).
  { unfold segment. rewrite K, D, N. destruct Hc as [[-> ->]|[-> ->]]; cbn [filter];
      rewrite !(proj2 (BaseFacts.Rleb_true _ _)) by lra; cbn [length Nat.min Nat.sub diffs map2 init removelast tl map nth]; (split; [reflexivity|]; split; [f_equal; lra|lia]). }
  destruct Sg as (Sg & Dx & Hm). unfold vcall_rd in Hy. destruct (split_rd _ _ _) as [ix|] eqn:E; [|discriminate]. cbn [bind] in Hy. rewrite L in Hy. injection Hy as <-.
  unfold split_rd in E. destruct (negb _); [discriminate|]. rewrite N in E. destruct (m - 1)%nat eqn:E'; [discriminate|]. cbv zeta in E. injection E as <-. cbn [fst snd]. rewrite Sg.
  apply Forall_map, Forall_forall. intros c Hc'. apply (In_nth _ _ col0) in Hc' as (l & Hl & <-). rewrite ML in Hl.
  apply piece_nonzero; auto. rewrite (MC l Hl). cbn [cdat]. rewrite Forall_forall in Hv. destruct (Hv _ (nth_In us [] Hl)) as (V1 & V2 & V3).
  pose proof (coefficients _ _ _ _ _ _ _ _ _ _ _ _ _ _ segs G g (nth l us []) (case_setting l) Ho HG Hg ltac:(fold m; lia) 0 (m - 2) ltac:(lia) ltac:(fold m; lia)) as C. cbv beta in C.
  assert (Pn : part_norm 1 (nth l us []) (m - 2) <= 1).
  { unfold part_norm. cbn [sumn]. rewrite Nat.mul_1_r, Nat.add_0_r, Rplus_0_l, sqrt_Rsqr_abs. exact V3. }
  assert (Pn0 : 0 <= part_norm 1 (nth l us []) (m - 2)) by apply sqrt_pos.
  destruct small64 as (_ & _ & P). assert (T : / 10 ^ 10 <= / 10000) by (apply Rinv_le_contravar; lra).
  assert (Ee : eta64 <= / 1000). { unfold eta64. apply Rle_trans with (Flocq.Core.Raux.bpow Flocq.Core.Zaux.radix2 (-10)); [apply Flocq.Core.Raux.bpow_le; lia|]. cbn. lra. }
  unfold coefficient_error in C. cbn [INR] in C.
  assert (B : forall uu ee pn x, uu <= / 10000 -> ee <= / 1000 -> 0 <= pn <= 1 -> x <= (2 * 0 + 1) * ((1 * 1 * (6 * uu + 2 * 0) + 2 * 0 + 13 * uu + 2 * 1 * uu) * pn + 5 * (ee + 4 * 1 * ee)) -> 0 <= uu -> x <= / 10).
  { intros uu ee pn x H1 H2 H3 H4 H5. assert (uu * pn <= / 10000 * 1) by (apply Rmult_le_compat; lra). lra. }
  apply B in C; [|lra|exact Ee|lra|]; [|left; apply Rinv_0_lt_compat, pow_lt; lra].
  match type of C with Rabs (?a - ?b) <= _ => pose proof (Rabs_triang_inv b a) as A; rewrite (Rabs_minus_sym b a) in A end. lra.
Qed.

(** * The whole computation *)
Definition case64_at (cut : R) (have_xprec have_gejsv : bool) (dd : R) (old : bool) (run : svd_alg -> matrix -> Z -> usv) (st : option strat) : res (option sve_result) :=
  compute_rd have_xprec have_gejsv dd old (fun _ => rnd64) rnd64 (fun _ => tfun64) (fun _ _ _ _ _ => chained_dot rnd64)
    leg1 run sort_indices caseK None (Some (Fin cut)) None (Some 1%nat) (Some Float64) st (Some "default"%string).

Notation case64 := (case64_at 0).

Lemma case64_returns cut hx hg dd old run st : 0 <= cut <= 1 -> (forall alg M h, usv_shaped (run alg M h)) -> exists o, case64_at cut hx hg dd old run st = Ok o.
Proof.
  intros Hcut Hr. unfold case64_at. apply compute_rd_returns.
  - exact sort_indices_ok.
  - intros t n [[= <-]|[H _]]; [|discriminate]. exists gauss1. split; [reflexivity|]. split; [lia|]. split.
    + destruct case_full_matrix as (M & HM). exists M. split; [exact HM|]. intros; apply Hr.
    + intros s Ks _ _. destruct (case_half_matrix Ks) as (M & HM). exists M. split; [exact HM|]. intros; apply Hr.
  - right. right. left. reflexivity.
  - auto.
  - intros c [= <-]. exists cut. split; [reflexivity|lra].
  - discriminate.
Qed.

Lemma piecewise_unit : piecewise gauss1 [0; 1] = Ok (Rule [/ 2] [1] [/ 2] [/ 2] 0 1).
Proof.
  unfold piecewise. cbn [init removelast tl map2 forallb]. assert (B : Rltb 0 1 = true) by (destruct (Rltb_spec 0 1); auto; lra).
  rewrite B. cbn [andb]. unfold join. cbn [map2 last ra rb reseat rule_init gauss1 join_parts bind rx Gauss.rw rfw rbw map].
  assert (E : forall t, Reqb t t = true) by (intros t; unfold Reqb; destruct (Req_EM_T t t); auto; lra). rewrite ?E. cbn [bind map concat app fst snd]. f_equal. unfold rule_init. f_equal; try (apply (f_equal2 cons); [field|reflexivity]).
Qed.
Lemma half_root : sqrt (/ 2) * sqrt (/ 2) = / 2 /\ 7 / 10 <= sqrt (/ 2) <= 1.
Proof.
  assert (E : sqrt (/ 2) * sqrt (/ 2) = / 2) by (apply sqrt_sqrt; lra). pose proof (sqrt_pos (/ 2)). split; [exact E|]. split; nra.
Qed.

Lemma case_value segs i v (G : rule) : nth i (sqrtw G) 0 = 1 -> (i < length (sqrtw G))%nat -> (i < length v)%nat -> nth (S i) segs 0 - nth i segs 0 = 1 ->
  collocate 1 gauss1 segs (sqrtw G) v 0 i = nth i v 0 * sqrt (/ 2).
Proof.
  intros Hw Hi Hv Hs. unfold collocate. rewrite Hs. rewrite Rmult_1_r. f_equal. cbn [sumn seq map rsum fold_right]. unfold legendre_collocation. cbn [nth rx Gauss.rw gauss1 INR].
  rewrite legP_0, Nat.mul_1_r, Nat.add_0_r. rewrite (map2_nth _ _ _ _ 0 0 0) by auto. rewrite Hw. field.
Qed.

Lemma case64_some cut hx hg dd old run st : 0 <= cut <= 1 -> (forall alg M h, usv_shaped (run alg M h)) ->
  (forall alg M h, let us := fst (fst (run alg M h)) in
     match st with
     | Some SampleStrat => Forall (fun v => length v = 2%nat /\ Rabs (nth 1 v 0) = sqrt (/ 2)) us
     | _ => Forall (fun v => v = [1]) us
     end) -> exists r, case64_at cut hx hg dd old run st = Ok (Some r).
Proof.
  intros Hcut Hr Hu. destruct (case64_returns cut hx hg dd old run st Hcut Hr) as (o & Ho). rewrite Ho. destruct o as [r|]; [eauto|]. exfalso.
  unfold case64_at in Ho. apply compute_rd_none in Ho as (part & t & S & A & alg & h & c & Hl & Hn & Hs & Hh & Hg & Hp).
  specialize (Hn _ eq_refl). rewrite Hn in Hl. injection Hl as Hl. specialize (Hu alg A h). cbv zeta in Hu. destruct half_root as (Q1 & Q2).
  destruct (usual_ordinary _ case_cutoff) as (_ & Hla). destruct (hinted_edges caseK _ Hla (or_introl eq_refl)) as (Ex & Ehx). destruct (hinted_edges caseK _ Hla (or_intror eq_refl)) as (Ey & Ehy).
  set (b := run alg A h) in *. clearbody b. destruct b as [[us s] vs]. unfold cut_block in Hp. cbn [fst snd bvals] in Hp, Hu. set (k := count_above c s) in *.
  assert (X : ordinary_edges (s_segs_x S) /\ ordinary_edges (s_segs_y S) /\ exists G, piecewise gauss1 (s_segs_x S) = Ok G /\
    (length (s_segs_x S) = 2%nat /\ s_segs_x S = [0; 1] \/ length (s_segs_x S) = 3%nat /\ s_segs_x S = [-1; 0; 1]) /\
    Forall (fun v => length v = (length (s_segs_x S) - 1)%nat /\ 2 / 5 <= Rabs (collocate 1 gauss1 (s_segs_x S) (sqrtw G) v 0 (length (s_segs_x S) - 2)) /\ Rabs (nth (length (s_segs_x S) - 2) v 0) <= 1) us).
  { assert (D : st = Some SampleStrat \/ st <> Some SampleStrat) by (destruct st as [[]|]; [left; auto|right; discriminate|right; discriminate]). destruct D as [->|D].
    - destruct (Hs eq_refl) as [-> ->]. split; [exact Ex|]. split; [exact Ey|]. rewrite case_full_x in *. eexists. split; [exact piecewise_full|]. split; [right; auto|].
      revert Hu. apply Forall_impl. intros v [V1 V2]. cbn [length Nat.sub]. split; [exact V1|]. rewrite V2. split; [|lra].
      rewrite case_value; [rewrite Rabs_mult, V2, (Rabs_pos_eq (sqrt _)) by apply sqrt_pos; lra| | | |]; cbn [sqrtw Gauss.rw map nth length]; try lia; [apply sqrt_1|lra].
    - destruct (Hh D) as [-> ->]. split; [exact Ehx|]. split; [exact Ehy|]. rewrite case_half_x in *. eexists. split; [exact piecewise_unit|]. split; [left; auto|].
      assert (Hu' : Forall (fun v => v = [1]) us) by (destruct st as [[]|]; [congruence|exact Hu|exact Hu]). revert Hu'. apply Forall_impl. intros v ->. cbn [length Nat.sub nth]. split; [reflexivity|]. rewrite Rabs_R1. split; [|lra].
      rewrite case_value; [cbn [nth]; rewrite Rmult_1_l, (Rabs_pos_eq (sqrt _)) by apply sqrt_pos; lra| | | |]; cbn [sqrtw Gauss.rw map nth length]; try lia; [apply sqrt_1|lra]. }
  destruct X as (X1 & X2 & G & X3 & X4 & X5).
  destruct (proj2 (post_rd_defined old rnd64 rnd64 ((fun _ _ _ _ _ => chained_dot rnd64) part) S (firstn k us) (firstn k s) (firstn k vs) ltac:(lia) (e_ok _ X1) (e_ok _ X2)
    ltac:(destruct X4 as [[_ ->]|[_ ->]]; cbn; lra))) as (r & Hr'); [|rewrite Hr' in Hp; discriminate].
  intros u ys U Y. rewrite Hn, <- Hl in U. rewrite <- Hl in Hg.
  apply (case_nonzero old (s_segs_x S) G (s_gx S) (firstn k us) u ys X1 X4 X3 Hg); auto.
  rewrite <- (firstn_skipn k us) in X5. apply Forall_app in X5. apply X5.
Qed.

Lemma defect64 L m : (L <= 2)%nat -> (m <= 4)%nat ->
  let ce := coefficient_error 1 (/ 2 ^ 53) 0 0 (2 * INR 1 * / 2 ^ 53) in
  0 <= vectors_error 1 L m (ce + 4 * / 2 ^ 53) (8 * (eta64 + 4 * INR 1 * eta64)) <= / 10 ^ 7 /\
  0 <= vectors_error 1 L m ce (5 * (eta64 + 4 * INR 1 * eta64)) <= / 10 ^ 7 /\ ce <= / 200.
Proof.
  intros HL Hm. cbv zeta. unfold vectors_error, coefficient_error. cbn [INR].
  assert (E0 : 0 <= eta64) by apply Flocq.Core.Raux.bpow_ge_0.
  assert (E : eta64 <= / 2 ^ 40). { unfold eta64. apply Rle_trans with (Flocq.Core.Raux.bpow Flocq.Core.Zaux.radix2 (-40)); [apply Flocq.Core.Raux.bpow_le; lia|]. cbn [Flocq.Core.Raux.bpow]. right. f_equal. rewrite pow_IZR. f_equal. }
  assert (E2 : / 2 ^ 40 <= / 10 ^ 12) by (apply Rinv_le_contravar; lra).
  destruct small64 as (_ & _ & P). assert (P' : / 2 ^ 53 <= / 10 ^ 12) by (apply Rinv_le_contravar; lra).
  assert (P0 : 0 <= / 2 ^ 53) by (left; apply Rinv_0_lt_compat, pow_lt; lra).
  assert (Q1 : 0 <= sqrt (INR L) <= 2). { split; [apply sqrt_pos|]. rewrite <- (sqrt_Rsqr 2) by lra. apply sqrt_le_1_alt. apply le_INR in HL. cbn in HL. unfold Rsqr. lra. }
  assert (Q2 : 0 <= sqrt (INR m) <= 2). { split; [apply sqrt_pos|]. rewrite <- (sqrt_Rsqr 2) by lra. apply sqrt_le_1_alt. apply le_INR in Hm. cbn in Hm. unfold Rsqr. lra. }
  assert (B : forall u ee a b k, 0 <= u <= / 10 ^ 12 -> 0 <= ee <= / 10 ^ 12 -> 0 <= a <= 2 -> 0 <= b <= 2 -> 0 <= k <= 40 ->
    0 <= 1 * a * (3 * (25 * u) + 2 * b * (k * ee)) <= / 10 ^ 9).
  { clear. intros u ee a b k Hu He Ha Hb Hk. assert (0 <= k * ee <= 40 * / 10 ^ 12) by (split; [apply Rmult_le_pos; lra|apply Rmult_le_compat; lra]).
    assert (0 <= b * (k * ee) <= 2 * (40 * / 10 ^ 12)) by (split; [apply Rmult_le_pos; lra|apply Rmult_le_compat; lra]).
    assert (0 <= 3 * (25 * u) + 2 * (b * (k * ee)) <= 235 * / 10 ^ 12) by lra.
    replace (1 * a * (3 * (25 * u) + 2 * b * (k * ee))) with (a * (3 * (25 * u) + 2 * (b * (k * ee)))) by ring.
    split; [apply Rmult_le_pos; lra|]. apply Rle_trans with (2 * (235 * / 10 ^ 12)); [apply Rmult_le_compat; lra|lra]. }
  assert (B' : forall u ee a b k, 0 <= u <= / 10 ^ 12 -> 0 <= ee <= / 10 ^ 12 -> 0 <= a <= 2 -> 0 <= b <= 2 -> 0 <= k <= 40 ->
    0 <= 1 * a * (3 * (21 * u) + 2 * b * (k * ee)) <= / 10 ^ 9).
  { intros u ee a b k Hu He Ha Hb Hk. pose proof (B u ee a b k Hu He Ha Hb Hk) as X. assert (0 <= k * ee) by (apply Rmult_le_pos; lra). assert (0 <= b * (k * ee)) by (apply Rmult_le_pos; lra).
    assert (0 <= a * u) by (apply Rmult_le_pos; lra). assert (0 <= a * (b * (k * ee))) by (apply Rmult_le_pos; lra). lra. }
  assert (T : / 10 ^ 9 <= / 10 ^ 7) by (apply Rinv_le_contravar; lra).
  set (u := / 2 ^ 53) in *. clearbody u. set (ee := eta64) in *. clearbody ee. set (a := sqrt (INR L)) in *. set (b := sqrt (INR m)) in *. clearbody a b.
  assert (He : 0 <= ee <= / 10 ^ 12) by lra. assert (Hu : 0 <= u <= / 10 ^ 12) by lra.
  pose proof (B u ee a b 40 Hu He Q1 Q2 ltac:(lra)) as B1. pose proof (B' u ee a b 25 Hu He Q1 Q2 ltac:(lra)) as B2.
  replace (3 * (1 * 1 * (6 * u + 2 * 0) + 2 * 0 + 13 * u + 2 * 1 * u + 4 * u) + 2 * b * (8 * (ee + 4 * 1 * ee))) with (3 * (25 * u) + 2 * b * (40 * ee)) by ring.
  replace (3 * (1 * 1 * (6 * u + 2 * 0) + 2 * 0 + 13 * u + 2 * 1 * u) + 2 * b * (5 * (ee + 4 * 1 * ee))) with (3 * (21 * u) + 2 * b * (25 * ee)) by ring.
  lra.
Qed.

Lemma dots64 : forall (part side : bool) (l m i : nat), SSVEIEEE.inner_near 1 (2 * INR 1 * / 2 ^ 53) (4 * INR 1 * eta64) ((fun _ _ _ _ _ => chained_dot rnd64) part side l m i).
Proof. intros part side l m i. destruct (case_setting l) as (_ & _ & _ & _ & _ & _ & H & _). exact (H m i). Qed.

Lemma orthonormal_le p a b : nearly_orthonormal_functions p a -> a <= b -> nearly_orthonormal_functions p b.
Proof. intros H Hab l m f g Hf Hg. destruct (H l m f g Hf Hg) as (I & HI & HB). exists I. split; [exact HI|lra]. Qed.

Lemma case_symm_ok hx hg dd old : exists r, case64 hx hg dd old two_svd None = Ok (Some r) /\
  nearly_orthonormal_functions (su (ideal_sve r)) (/ 10 ^ 6) /\ nearly_orthonormal_functions (sv (ideal_sve r)) (/ 10 ^ 6).
Proof.
  destruct (case64_some 0 hx hg dd old two_svd None ltac:(lra) two_svd_shape) as (r & Hr).
  { intros alg M h. cbv zeta. unfold two_svd. cbv zeta. destruct (Reqb _ _); repeat constructor. }
  exists r. split; [exact Hr|]. unfold case64_at in Hr.
  destruct (rounded_symm _ _ _ _ _ _ _ _ _ _ _ sort_indices_ok _ _ _ _ _ _ _ _ _ Hr ltac:(discriminate) case_cutoff) as (t & n & q' & Ke & Ko & Me & Mo & alge & he & algo & ho & H1 & H2 & H3 & H4 & H5 & H6 & H).
  specialize (H2 _ eq_refl). subst n. injection H1 as <-. destruct seen_half_x as (gx & HX & _). destruct seen_half_y as (gy & HY & _). destruct seen_x as (GX & FX & _). destruct seen_y as (GY & FY & _).
  assert (Lx : length (rx gx) = 1%nat) by (rewrite case_half_x, piecewise_unit in HX; injection HX as <-; reflexivity).
  assert (Ly : length (rx gy) = 2%nat).
  { destruct case_z as (z & Z1 & Z2 & _ & E). rewrite E in HY. destruct (any_rule [0; - z; 1]) as (G & HG & EG); [split; [cbn; lia|repeat constructor; lra]|]. rewrite HG in HY. injection HY as <-. rewrite EG. reflexivity. }
  assert (Ls : forall alg M h, length (svals (two_svd alg M h)) = 1%nat) by (intros; unfold two_svd; cbv zeta; destruct (Reqb _ _); reflexivity).
  assert (Mx : (length (half (segments_x caseK)) - 1 = 1)%nat) by (rewrite case_half_x; reflexivity).
  assert (My : (length (half (segments_y caseK)) - 1 = 2)%nat) by (destruct case_z as (z & _ & _ & _ & ->); reflexivity).
  specialize (H (/ 2 ^ 53) eta64 (/ 2 ^ 53) gauss1 0 0 0 2 (2 * INR 1 * / 2 ^ 53) (4 * INR 1 * eta64) gx gy GX GY casef casek 0 0 0 0 0 0
    case_arithmetic case_reference rounding_double rnd64_le dots64 ltac:(apply (defect64 1 1); lia) casef_ok casek_value HX HY FX FY).
  rewrite Lx, Ly in H.
  specialize (H ltac:(apply near_computed; [apply two_svd_near|rewrite Ls; lia|rewrite Ls; lia]) ltac:(apply near_computed; [apply two_svd_near|rewrite Ls; lia|rewrite Ls; lia])).
  cbv beta zeta in H. rewrite !Ls, Mx, My in H. unfold functions_defect in H.
  destruct (defect64 1 1 ltac:(lia) ltac:(lia)) as (A1 & _). destruct (defect64 1 2 ltac:(lia) ltac:(lia)) as (A2 & _). cbv zeta in A1, A2.
  set (v1 := vectors_error 1 1 1 _ _) in *. set (v2 := vectors_error 1 1 2 _ _) in *. clearbody v1 v2. assert (T : / 10 ^ 7 <= / 10 ^ 6 / 10) by lra. assert (T1 : / 10 ^ 6 <= 1) by lra.
  destruct H as (_ & U & V); try lra. split; [apply (orthonormal_le _ _ _ U)|apply (orthonormal_le _ _ _ V)]; rewrite Rmax_left; lra.
Qed.

Lemma case_sample_ok hx hg dd old : exists run r, case64 hx hg dd old run (Some SampleStrat) = Ok (Some r) /\
  nearly_orthonormal_functions (su (ideal_sve r)) (/ 10 ^ 6) /\ nearly_orthonormal_functions (sv (ideal_sve r)) (/ 10 ^ 6).
Proof.
  destruct seen_x as (GX & FX & _). destruct seen_y as (GY & FY & _). exists (fun alg _ h => pair_svd alg (weighted casek GX GY) h).
  destruct case_rounded as (_ & _ & _ & (M0 & HM0 & HN) & _).
  assert (Lx : length (rx GX) = 2%nat) by (rewrite case_full_x, piecewise_full in FX; injection FX as <-; reflexivity).
  assert (Ly : length (rx GY) = 4%nat).
  { destruct case_z as (z & Z1 & Z2 & E & _). rewrite E in FY. destruct (any_rule [-1; z; 0; - z; 1]) as (G & HG & EG); [split; [cbn; lia|repeat constructor; lra]|]. rewrite HG in FY. injection FY as <-. rewrite EG. reflexivity. }
  assert (Q : / sqrt 2 = sqrt (/ 2)) by (symmetry; apply sqrt_inv).
  assert (Pu : forall alg h, Forall (fun v => length v = 2%nat /\ Rabs (nth 1 v 0) = sqrt (/ 2)) (fst (fst (pair_svd alg (weighted casek GX GY) h))) /\ length (svals (pair_svd alg (weighted casek GX GY) h)) = 2%nat).
  { intros alg h. destruct (HN GX GY alg h FX FY) as (_ & O & _). rewrite Lx in O.
    assert (R : forall alg A h, ~ orthonormal_usv 2 (length (rx GY)) (row_svd alg A h)).
    { intros alg0 A0 h0. unfold row_svd. destruct A0; intros (_ & _ & F & _); inversion F as [|? ? F1 _]; subst; discriminate F1. }
    unfold pair_svd in *. destruct (weighted casek GX GY) as [|a [|b [|]]]; try (exfalso; exact (R _ _ _ O)). cbv zeta in *. destruct (Rleb _ _); [|exfalso; exact (R _ _ _ O)].
    cbn [fst svals snd length]. split; [|reflexivity]. rewrite Q. pose proof (sqrt_pos (/ 2)). repeat constructor; cbn [nth]; [|rewrite Rabs_Ropp]; apply Rabs_pos_eq; auto. }
  destruct (case64_some 0 hx hg dd old (fun alg _ h => pair_svd alg (weighted casek GX GY) h) (Some SampleStrat) ltac:(lra)) as (r & Hr).
  { intros alg M h. apply pair_svd_shape. }
  { intros alg M h. apply Pu. }
  exists r. split; [exact Hr|]. unfold case64_at in Hr.
  destruct (ComputeRound.rounded_sample _ _ _ _ _ _ _ _ _ _ _ _ _ _ _ _ _ _ _ Hr case_cutoff) as (t & n & q' & M & alg & h & H1 & H2 & H3 & _ & H).
  specialize (H2 _ eq_refl). subst n. injection H1 as <-. cbv beta in H3. rewrite HM0 in H3. injection H3 as <-.
  assert (Mx : (length (segments_x caseK) - 1 = 2)%nat) by (rewrite case_full_x; reflexivity).
  assert (My : (length (segments_y caseK) - 1 = 4)%nat) by (destruct case_z as (z & _ & _ & -> & _); reflexivity).
  specialize (H (/ 2 ^ 53) eta64 (/ 2 ^ 53) gauss1 0 0 0 2 (2 * INR 1 * / 2 ^ 53) (4 * INR 1 * eta64) GX GY casef casek 0 0 (full_error (/ 2 ^ 53) (/ 2 ^ 53) 0 0 0 2 caseK)
    case_arithmetic case_reference rounding_double rnd64_le (dots64 true) ltac:(apply (defect64 1 1); lia) casef_ok casek_value FX FY).
  rewrite Lx, Ly in H.
  assert (Cs : computed_svd 2 4 M0 (pair_svd alg (weighted casek GX GY) h) 0 0 (full_error (/ 2 ^ 53) (/ 2 ^ 53) 0 0 0 2 caseK)).
  { apply near_computed; [pose proof (HN GX GY alg h FX FY) as X; rewrite Lx, Ly in X; exact X|rewrite (proj2 (Pu alg h)); lia|rewrite (proj2 (Pu alg h)); lia]. }
  specialize (H Cs). cbv beta zeta in H. rewrite !(proj2 (Pu alg h)), Mx, My in H.
  destruct (defect64 2 2 ltac:(lia) ltac:(lia)) as (_ & A1 & _). destruct (defect64 2 4 ltac:(lia) ltac:(lia)) as (_ & A2 & _). cbv zeta in A1, A2.
  set (v1 := vectors_error 1 2 2 _ _) in *. set (v2 := vectors_error 1 2 4 _ _) in *. clearbody v1 v2. assert (T : / 10 ^ 7 <= / 10 ^ 6 / 10) by lra. assert (T1 : / 10 ^ 6 <= 1) by lra.
  destruct H as (_ & U & V); try lra. split; [apply (orthonormal_le _ _ _ U)|apply (orthonormal_le _ _ _ V)]; lra.
Qed.
