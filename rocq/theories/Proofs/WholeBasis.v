(** From the computed expansion to the basis. *)
From Coq Require Import String ZArith Arith Bool Reals Lra Lia Psatz.
From Coquelicot Require Import Coquelicot.
From Coq Require Import List Sorting.Sorted.
From Verif.Model Require Import Base Util Num Gauss Poly FT SVE Basis Kernel Compute Whole.
From Verif.Spec Require Import SGauss SPoly SFT SSVE SBasis SKernel SCompute SSingular SWhole.
From Verif.Proofs Require Import BaseFacts SumFacts GaussFacts PPolyFacts KernelSegs KernelProps BasisFacts BasisInit BasisProps BasisOps BasisPhys
  ComputeNodes ComputePost ComputeMerged ComputeError ComputeFull ComputeWhole ComputeNonempty SingularEq SingularCompute BestCuts WholeFacts.
Import ListNotations.
Open Scope R_scope.
Notation length := List.length.

Lemma pieces_ends q : forall l s t d, exists r0 tl, GaussFacts.pieces q (s :: t :: l) = r0 :: tl /\ ra r0 = s /\
  rb (last (GaussFacts.pieces q (s :: t :: l)) d) = nth (length l) (t :: l) 0.
Proof.
  induction l as [|a l IH]; intros s t d.
  - exists (reseat q s t), []. cbn. auto.
  - destruct (IH t a d) as (r0 & tl & E & _ & Hb). rewrite pieces_cons2. exists (reseat q s t), (GaussFacts.pieces q (t :: a :: l)).
    split; [reflexivity|]. split; [reflexivity|]. change (nth (length (a :: l)) (t :: a :: l) 0) with (nth (length l) (a :: l) 0). rewrite <- Hb, E. reflexivity.
Qed.

Lemma segs_rule n q segs G : gauss_ok n q -> valid_segments segs -> piecewise q segs = Ok G ->
  ra G = -1 /\ rb G = 1 /\ forall x, In x (rx G) -> -1 <= x <= 1.
Proof.
  intros Hq Hv HG. destruct (full_edges _ Hv) as (He & N0 & N1 & _).
  assert (Hn : forall x, In x (rx G) -> -1 <= x <= 1).
  { intros x Hx. pose proof (proj2 (node_not_edge n q segs G Hq He HG x Hx)) as H. rewrite N0, N1 in H. lra. }
  destruct He as [L _]. destruct segs as [|s [|t l]]; cbn in L; try lia. cbn in N0.
  destruct (pieces_ends q l s t (reseat q s t)) as (r0 & tl & E & Ea & Eb).
  destruct (piecewise_ok_inv _ _ _ HG) as [_ H2].
  destruct (proj1 (join_spec (GaussFacts.pieces q (s :: t :: l)))) as (r1 & t1 & E1 & E2); [rewrite E; discriminate|apply pieces_chained|].
  rewrite H2 in E2. assert (EG : G = joined r1 (GaussFacts.pieces q (s :: t :: l))) by congruence. rewrite EG. rewrite E in E1. injection E1 as <- <-. cbn [joined ra rb].
  split; [congruence|]. split; [|intros x Hx; apply Hn; rewrite EG; exact Hx].
  rewrite E in Eb |- *. replace (last (r0 :: tl) r0) with (last (r0 :: tl) (reseat q s t)).
  - rewrite Eb. rewrite <- N1. cbn [length]. replace (S (S (length l)) - 1)%nat with (S (length l)) by lia. reflexivity.
  - clear. revert r0. induction tl; intros; cbn; auto. destruct tl; auto. apply IHtl.
Qed.

Lemma valid_of K : 0 < k_lambda K -> valid_segments (segments_x K) /\ valid_segments (segments_y K).
Proof. intros H. apply segments_valid; auto. Qed.

(** The parity carries over. *)
Lemma off_knot g x : geom_ok g -> gxmin g < x < gxmax g -> ~ In x (gknots g) -> exists i, (i < gnseg g)%nat /\ knot g i < x < knot g (S i).
Proof.
  intros Hg Hx Hn. destruct (find_segment g Hg x ltac:(lra)) as (i & Hi & H1 & H2). exists i. split; auto.
  destruct Hg as (G1 & G2 & _).
  assert (knot g i <> x). { intros E. apply Hn. rewrite <- E. apply nth_In. lia. }
  destruct H2 as [H2|[_ H2]]; lra.
Qed.

Section Parity.
Variable compute : kern -> option R -> res sve_result.
Variable b : basis.
Hypothesis Hb : built compute b.
Hypothesis Hpos : forall l g, represents (su (bsve b)) l g -> 0 < g 1.
Hypothesis Hpar : forall l p q, nth_error (vcols (su (bsve b))) l = Some p -> nth_error (vcols (sv (bsve b))) l = Some q ->
    (csym p = 1 \/ csym p = -1) /\ csym q = csym p /\
    has_parity (vgeom (su (bsve b))) p (csym p) /\ has_parity (vgeom (sv (bsve b))) q (csym q).

Lemma phys_parity : common_parity b.
Proof.
  intros l u v Hu Hv. pose proof (beta_pos compute b Hb) as Pb. pose proof (wmax_pos compute b Hb) as Pw.
  destruct (u_from compute b Hb l u Hu) as (Hl & f & Hf & Ef). destruct (v_from compute b Hb l v Hv) as (_ & g & Hg & Eg).
  pose proof (size_le compute b Hb) as Sz.
  pose proof (ok_r compute b Hb) as ((Gu & Ou & Lu) & (Gv & Ov & Lv) & U1 & U2 & V1 & V2 & Nu & Nv & _).
  assert (S2 : 0 < sqrt (2 / bbeta b)). { apply sqrt_lt_R0. apply Rdiv_lt_0_compat; lra. }
  split.
  { replace (bbeta b) with (bbeta b / 2 * 1 + bbeta b / 2) by field. rewrite Ef by lra. apply Rmult_lt_0_compat; auto. apply Hpos with (l := l). exact Hf. }
  apply represents_cval in Hf; try lia; auto. destruct Hf as (p & Hp & Hf).
  apply represents_cval in Hg; try lia; auto. destruct Hg as (q & Hq & Hg).
  destruct (Hpar l p q Hp Hq) as (Hs & Es & [_ P1] & [_ P2]). rewrite Es in P2.
  exists (csym p). split; [exact Hs|]. split.
  - intros t Ht Hn. set (x := 2 * t / bbeta b - 1).
    assert (Et : t = bbeta b / 2 * x + bbeta b / 2) by (unfold x; field; lra).
    assert (Hx : -1 < x < 1). { unfold x. assert (0 < 2 * t / bbeta b < 2); [|lra]. split; [apply Rdiv_lt_0_compat; lra|apply Rlt_div_l; lra]. }
    assert (Hk : ~ In x (gknots (vgeom (su (bsve b))))).
    { intros Hi. apply Hn. rewrite (bu_eq compute b Hb). cbn [vgeom scaled_geom gknots]. rewrite Et. apply (in_map (fun x => bbeta b / 2 * x + bbeta b / 2)). exact Hi. }
    destruct (off_knot _ x Gu ltac:(rewrite U1, U2; lra) Hk) as (i & Hi & Hr).
    replace (bbeta b - t) with (bbeta b / 2 * (- x) + bbeta b / 2) by (rewrite Et; field). rewrite Et. rewrite !Ef by lra.
    rewrite <- !Hf by (rewrite U1, U2; lra). rewrite (P1 i x Hi Hr). ring.
  - intros w Hw Hn. set (y := w / bwmax b).
    assert (Ew : w = bwmax b * y) by (unfold y; field; lra).
    assert (Hy : -1 < y < 1). { unfold y. split; [apply Rlt_div_r|apply Rlt_div_l]; lra. }
    assert (Hk : ~ In y (gknots (vgeom (sv (bsve b))))).
    { intros Hi. apply Hn. rewrite (bv_eq compute b Hb). cbn [vgeom scaled_geom gknots]. rewrite Ew.
      replace (bwmax b * y) with (bwmax b * y + 0) by ring. apply (in_map (fun x => bwmax b * x + 0)). exact Hi. }
    destruct (off_knot _ y Gv ltac:(rewrite V1, V2; lra) Hk) as (i & Hi & Hr).
    replace (- w) with (bwmax b * (- y)) by (rewrite Ew; ring). rewrite Ew. rewrite !Eg by lra.
    rewrite <- !Hg by (rewrite V1, V2; lra). rewrite (P2 i y Hi Hr). unfold Rdiv. ring.
Qed.
End Parity.

Lemma init_nonempty c st beta wmax eps ms ker r b : basis_init c st beta wmax eps ms ker (Some r) = Ok b -> ss r <> [].
Proof.
  unfold basis_init. destruct (negb (Rltb 0 beta)); [discriminate|]. destruct (negb (Rleb 0 wmax)); [discriminate|].
  destruct (get_kernel st (beta * wmax) ker); [|discriminate]. cbn [bind]. intros H E. unfold part in H. rewrite E in H. discriminate.
Qed.

Lemma get_kernel_used st L KO k : get_kernel st L (option_map kern_of KO) = Ok k -> k = kern_of (used_kernel L KO).
Proof.
  unfold get_kernel. destruct (negb (stat_in st)); [discriminate|]. destruct KO as [K|]; cbn; [destruct (lam_close (k_lambda K) L); [|discriminate]|]; intros H; injection H as <-; reflexivity.
Qed.

Section FromExpansion.
Variables (have_xprec have_gejsv : bool) (dd : R) (f : tfun).
Variable legendre : dtype -> nat -> res rule.
Variable run : svd_alg -> matrix -> Z -> usv.
Variable argsort : list R -> list nat.
Notation compute := (compute have_xprec have_gejsv dd f legendre run argsort).
Hypothesis Hleg : good_rules legendre.
Hypothesis Hsort : forall s, sorts s (argsort s).
Hypothesis Hrun : svd_shaped run.
Variables (stat : string) (beta wmax : R) (eps' : option R) (ms : option pynum) (KO : option kernel).
Variable c : kern -> option R -> res sve_result.
Let K := used_kernel (beta * wmax) KO.
Variables (eps cutoff : option xr) (n_sv : option pynum) (ng : option nat) (work : option dtype) (st : option strat) (svds : option string) (r : sve_result) (b : basis).
Hypothesis Hc : compute K eps cutoff n_sv ng work st svds = Ok (Some r).
Hypothesis Hi : basis_init c stat beta wmax eps' ms (option_map kern_of KO) (Some r) = Ok b.
Hypothesis Hw : 0 < wmax.

Lemma from_parts : built c b /\ bsve b = r /\ bstat b = stat /\ bbeta b = beta /\ bwmax b = wmax /\ bkernel b = kern_of K /\ 0 < k_lambda K.
Proof.
  assert (Hok : sve_ok r).
  { apply (basis_input _ _ _ _ _ _ _ _ _ _ _ _ _ _ _ _ Hleg Hsort Hrun Hc). exact (init_nonempty _ _ _ _ _ _ _ _ _ Hi). }
  assert (Hr : bsve b = r).
  { pose proof Hi as H. unfold basis_init in H. destruct (negb (Rltb 0 beta)); [discriminate|]. destruct (negb (Rleb 0 wmax)); [discriminate|].
    destruct (get_kernel stat (beta * wmax) (option_map kern_of KO)) as [k|]; [|discriminate]. cbn [bind] in H.
    destruct (part r eps' ms) as [[[u s] v]|]; [|discriminate]. cbn [bind] in H.
    destruct (match s with [] => _ | s0 :: _ => _ end); [|discriminate]. cbn [bind] in H.
    destruct (rescaled u _ _); [|discriminate]. cbn [bind] in H. destruct (rescaled v _ _); [|discriminate]. cbn [bind] in H.
    destruct (klam k); [|discriminate]. destruct (even_odd stat); [|discriminate]. cbn [bind] in H.
    destruct (ft_init _ _ _ _); [|discriminate]. cbn [bind] in H. destruct (ft_slice _ _); [|discriminate]. cbn [bind] in H. injection H as <-. reflexivity. }
  rewrite <- Hr in Hok. destruct (basis_init_inv _ _ _ _ _ _ _ _ _ Hi Hok Hw) as (k & r' & lam & q & e & n & f1 & f2 & Pb & Hk & _ & _ & _ & _ & _ & _ & Hl & _ & _ & _ & E).
  pose proof (get_kernel_used _ _ _ _ Hk) as Ek. fold K in Ek.
  assert (0 < k_lambda K).
  { pose proof (get_kernel_pos stat (beta * wmax) _ k lam ltac:(apply Rmult_lt_0_compat; auto) Hk Hl) as P. rewrite Ek in Hl. cbn in Hl. injection Hl as <-. exact P. }
  split. { exists stat, beta, wmax, eps', ms, (option_map kern_of KO), (Some r). auto. }
  split; [exact Hr|]. rewrite E. cbn [the_basis bstat bbeta bwmax bkernel]. rewrite <- Ek in *. auto.
Qed.

Lemma from_named : bstat b = stat /\ bbeta b = beta /\ bwmax b = wmax /\ bsve b = r /\ (1 <= bsize b <= length (ss r))%nat.
Proof.
  destruct from_parts as (Hb & Er & E1 & E2 & E3 & _). repeat split; auto.
  - destruct (built_inv c b Hb) as (? & ? & ? & ? & _ & _ & _ & _ & _ & _ & _ & Hs & _). lia.
  - rewrite <- Er. exact (size_le c b Hb).
Qed.

Lemma from_parity : st <> Some SampleStrat -> common_parity b.
Proof.
  intros Hst. destruct from_parts as (Hb & Er & _). apply (phys_parity c b Hb).
  - rewrite Er. apply (wellformed _ _ _ _ _ _ _ _ _ _ _ _ _ _ _ _ Hleg Hsort Hrun Hc).
  - rewrite Er. exact (parities _ _ _ _ _ _ _ _ _ _ _ _ _ _ _ _ Hleg Hsort Hrun Hc Hst).
Qed.

Lemma from_positive : forall l u, represents (bu b) l u -> 0 < u beta.
Proof.
  intros l u Hu. destruct from_parts as (Hb & Er & E1 & E2 & E3 & _).
  destruct (u_from c b Hb l u Hu) as (Hl & g & Hg & Eg). pose proof (beta_pos c b Hb) as Pb.
  rewrite <- E2. replace (bbeta b) with (bbeta b / 2 * 1 + bbeta b / 2) by field. rewrite Eg by lra.
  apply Rmult_lt_0_compat; [apply sqrt_lt_R0; apply Rdiv_lt_0_compat; lra|].
  rewrite Er in Hg. destruct (wellformed _ _ _ _ _ _ _ _ _ _ _ _ _ _ _ _ Hleg Hsort Hrun Hc) as (_ & _ & _ & _ & _ & H). exact (H l g Hg).
Qed.

Variable k : R -> R -> R.
Hypothesis Hf : tfun_ok f.
Hypothesis Hk : forall x y, -1 <= x <= 1 -> -1 <= y <= 1 -> has_value f K x y (k x y).

Lemma from_centro : st <> Some SampleStrat ->
  exists t n q gx gy GX GY alge he algo ho,
    legendre t n = Ok q /\ (forall m, ng = Some m -> n = m) /\
    piecewise q (half (segments_x K)) = Ok gx /\ piecewise q (half (segments_y K)) = Ok gy /\
    piecewise q (segments_x K) = Ok GX /\ piecewise q (segments_y K) = Ok GY /\
    let Ae := weighted (fun x y => k x y + k x (- y)) gx gy in
    let Ao := weighted (fun x y => k x y - k x (- y)) gx gy in
    singular_triples (length (rx gx)) (length (rx gy)) Ae (run alge Ae he) ->
    singular_triples (length (rx gx)) (length (rx gy)) Ao (run algo Ao ho) ->
    diagonalizes (reseat GX 0 beta) (reseat GY (- wmax) wmax) (in_physical k (k_ypower K) beta wmax) b.
Proof.
  intros Hst. destruct from_parts as (Hb & Er & E1 & E2 & E3 & E4 & Hl). destruct (valid_of K Hl) as [Vx Vy].
  destruct (singular_centro _ _ _ _ _ _ _ Hleg Hsort _ _ _ _ _ _ _ _ _ Hc Hst k Hf Hl Hk) as
    (t & n & q & gx & gy & GX & GY & alge & he & algo & ho & H1 & H2 & H3 & H4 & H5 & H6 & H7).
  exists t, n, q, gx, gy, GX, GY, alge, he, algo, ho. repeat (split; [assumption|]). cbv zeta in *. intros Te To.
  destruct (H7 Te To) as (R1 & R2 & R3 & R4 & R5 & R6). destruct (Hleg _ _ _ H1) as [Gq _].
  destruct (segs_rule _ _ _ _ Gq Vx H5) as (A1 & A2 & A3). destruct (segs_rule _ _ _ _ Gq Vy H6) as (B1 & B2 & B3).
  rewrite <- Er in *. rewrite <- E2, <- E3. change (k_ypower K) with (kyp (kern_of K)). rewrite <- E4.
  apply (phys_all c b Hb GX GY k); auto.
Qed.

Lemma from_centro_best : st <> Some SampleStrat ->
  exists t n q gx gy GX GY alge he algo ho,
    legendre t n = Ok q /\ (forall m, ng = Some m -> n = m) /\
    piecewise q (half (segments_x K)) = Ok gx /\ piecewise q (half (segments_y K)) = Ok gy /\
    piecewise q (segments_x K) = Ok GX /\ piecewise q (segments_y K) = Ok GY /\
    let Ae := weighted (fun x y => k x y + k x (- y)) gx gy in
    let Ao := weighted (fun x y => k x y - k x (- y)) gx gy in
    let even := run alge Ae he in
    let odd := run algo Ao ho in
    exact_svd (length (rx gx)) (length (rx gy)) Ae even -> exact_svd (length (rx gx)) (length (rx gy)) Ao odd ->
    nonincreasing (svals even) -> nonincreasing (svals odd) ->
    Forall (fun x => 0 <= x) (svals even) -> Forall (fun x => 0 <= x) (svals odd) ->
    best_of_its_size (reseat GX 0 beta) (reseat GY (- wmax) wmax) (in_physical k (k_ypower K) beta wmax) b.
Proof.
  intros Hst. destruct from_parts as (Hb & Er & E1 & E2 & E3 & E4 & Hl). destruct (valid_of K Hl) as [Vx Vy].
  destruct (best_centro _ _ _ _ _ _ _ Hleg Hsort _ _ _ _ _ _ _ _ _ Hc Hst k Hf Hl Hk) as
    (t & n & q & gx & gy & GX & GY & alge & he & algo & ho & H1 & H2 & H3 & H4 & H5 & H6 & H7).
  exists t, n, q, gx, gy, GX, GY, alge, he, algo, ho. repeat (split; [assumption|]). cbv zeta in *. intros T1 T2 T3 T4 T5 T6.
  specialize (H7 T1 T2 T3 T4 T5 T6). destruct (Hleg _ _ _ H1) as [Gq _].
  destruct (segs_rule _ _ _ _ Gq Vx H5) as (A1 & A2 & A3). destruct (segs_rule _ _ _ _ Gq Vy H6) as (B1 & B2 & B3).
  rewrite <- Er in *. rewrite <- E2, <- E3. change (k_ypower K) with (kyp (kern_of K)). rewrite <- E4.
  apply (phys_best c b Hb GX GY k); auto.
Qed.

Lemma from_sample : st = Some SampleStrat ->
  exists t n q GX GY alg h,
    legendre t n = Ok q /\ (forall m, ng = Some m -> n = m) /\
    piecewise q (segments_x K) = Ok GX /\ piecewise q (segments_y K) = Ok GY /\
    let A := weighted k GX GY in
    let o := run alg A h in
    (singular_triples (length (rx GX)) (length (rx GY)) A o ->
     diagonalizes (reseat GX 0 beta) (reseat GY (- wmax) wmax) (in_physical k (k_ypower K) beta wmax) b) .
Proof.
  intros Hst. destruct from_parts as (Hb & Er & E1 & E2 & E3 & E4 & Hl). destruct (valid_of K Hl) as [Vx Vy]. pose proof Hc as Hc'. rewrite Hst in Hc'.
  destruct (singular_sample _ _ _ _ _ _ _ Hleg _ _ _ _ _ _ _ _ Hc' k Hk) as (t & n & q & GX & GY & alg & h & H1 & H2 & H5 & H6 & H7).
  exists t, n, q, GX, GY, alg, h. repeat (split; [assumption|]). cbv zeta in *. intros T.
  destruct (H7 T) as (R1 & R2 & R3 & R4 & R5 & R6). destruct (Hleg _ _ _ H1) as [Gq _].
  destruct (segs_rule _ _ _ _ Gq Vx H5) as (A1 & A2 & A3). destruct (segs_rule _ _ _ _ Gq Vy H6) as (B1 & B2 & B3).
  rewrite <- Er in *. rewrite <- E2, <- E3. change (k_ypower K) with (kyp (kern_of K)). rewrite <- E4.
  apply (phys_all c b Hb GX GY k); auto.
Qed.

Lemma from_sample_best : st = Some SampleStrat ->
  exists t n q GX GY alg h,
    legendre t n = Ok q /\ (forall m, ng = Some m -> n = m) /\
    piecewise q (segments_x K) = Ok GX /\ piecewise q (segments_y K) = Ok GY /\
    let A := weighted k GX GY in
    let o := run alg A h in
    exact_svd (length (rx GX)) (length (rx GY)) A o -> nonincreasing (svals o) -> Forall (fun x => 0 <= x) (svals o) ->
    best_of_its_size (reseat GX 0 beta) (reseat GY (- wmax) wmax) (in_physical k (k_ypower K) beta wmax) b.
Proof.
  intros Hst. destruct from_parts as (Hb & Er & E1 & E2 & E3 & E4 & Hl). destruct (valid_of K Hl) as [Vx Vy]. pose proof Hc as Hc'. rewrite Hst in Hc'.
  destruct (best_sample _ _ _ _ _ _ _ Hleg _ _ _ _ _ _ _ _ Hc' k Hk) as (t & n & q & GX & GY & alg & h & H1 & H2 & H5 & H6 & H7).
  exists t, n, q, GX, GY, alg, h. repeat (split; [assumption|]). cbv zeta in *. intros T1 T2 T3.
  specialize (H7 T1 T2 T3). destruct (Hleg _ _ _ H1) as [Gq _].
  destruct (segs_rule _ _ _ _ Gq Vx H5) as (A1 & A2 & A3). destruct (segs_rule _ _ _ _ Gq Vy H6) as (B1 & B2 & B3).
  rewrite <- Er in *. rewrite <- E2, <- E3. change (k_ypower K) with (kyp (kern_of K)). rewrite <- E4.
  apply (phys_best c b Hb GX GY k); auto.
Qed.
End FromExpansion.

Lemma safe_small hx dd eps svds e t strategy wn : 0 <= dd <= 1 -> safe_eps hx dd eps None svds = (e, t, strategy, wn) -> e <= 1.
Proof.
  intros Hd Hs. assert (Hsq : sqrt dd <= 1) by (rewrite <- sqrt_1; apply sqrt_le_1; lra). unfold safe_eps in Hs.
  set (t0 := match eps with None => max_dtype hx | Some e => if xltb e (Fin (/ 10 ^ 8)) then max_dtype hx else Float64 end) in *.
  assert (Ht : t0 = Float64 \/ t0 = DDouble).
  { unfold t0. destruct eps as [x|]; [destruct (xltb x (Fin (/ 10 ^ 8)))|]; destruct hx; cbn; auto. }
  clearbody t0.
  assert (E : e = match t0 with Float64 => / 10 ^ 8 | _ => sqrt (finfo_eps dd t0) end).
  { destruct svds; [congruence|]. destruct eps as [x|]; [|congruence]. destruct (xltb x _); congruence. }
  rewrite E. destruct Ht as [->| ->]; cbn; lra.
Qed.

(** The constructor without sve_result. *)
Section New.
Variables (have_xprec have_gejsv : bool) (dd : R) (f : tfun).
Variable legendre : dtype -> nat -> res rule.
Variable run : svd_alg -> matrix -> Z -> usv.
Variable argsort : list R -> list nat.
Notation compute := (compute have_xprec have_gejsv dd f legendre run argsort).
Notation new_basis := (new_basis have_xprec have_gejsv dd f legendre run argsort).

Lemma new_iff stat beta wmax eps ms KO b c :
  new_basis stat beta wmax eps ms KO = Ok (Some b) <->
  exists r, compute (used_kernel (beta * wmax) KO) (option_map Fin eps) None None None None None None = Ok (Some r) /\
    basis_init c stat beta wmax eps ms (option_map kern_of KO) (Some r) = Ok b.
Proof.
  unfold new_basis. split.
  - intros H. destruct (negb (Rltb 0 beta)); [discriminate|]. destruct (negb (Rleb 0 wmax)); [discriminate|].
    destruct (get_kernel stat (beta * wmax) (option_map kern_of KO)); [|discriminate]. cbn [bind] in H.
    destruct (compute _ _ _ _ _ _ _ _) as [[r|]|]; try discriminate. cbn [bind] in H. exists r. split; auto.
    change (basis_init (fun _ _ => Ok r) stat beta wmax eps ms (option_map kern_of KO) None) with
      (basis_init c stat beta wmax eps ms (option_map kern_of KO) (Some r)) in H.
    destruct (basis_init c _ _ _ _ _ _ _); [|discriminate]. cbn [bind] in H. congruence.
  - intros (r & H1 & H2). pose proof H2 as H3. unfold basis_init in H3.
    destruct (negb (Rltb 0 beta)); [discriminate|]. destruct (negb (Rleb 0 wmax)); [discriminate|].
    destruct (get_kernel stat (beta * wmax) (option_map kern_of KO)); [|discriminate]. cbn [bind]. clear H3. rewrite H1. cbn [bind].
    change (basis_init (fun _ _ => Ok r) stat beta wmax eps ms (option_map kern_of KO) None) with
      (basis_init c stat beta wmax eps ms (option_map kern_of KO) (Some r)). rewrite H2. reflexivity.
Qed.

Hypothesis Hleg : good_rules legendre.
Hypothesis Hsort : forall s, sorts s (argsort s).
Hypothesis Hrun : svd_shaped run.
Hypothesis Hf : tfun_ok f.

Lemma kernel_positive K x y v : 0 < k_lambda K -> -1 <= x <= 1 -> -1 <= y <= 1 -> has_value f K x y v -> 0 < v.
Proof.
  intros Hl Hx Hy Hv. destruct K as [lam|lam]; cbn in Hl.
  - destruct (logistic_has_value f lam x y v Hf Hl Hx Hy) as [H1 H2]. apply H1 in Hv. subst. tauto.
  - destruct (bose_has_value f lam x y Hf Hl Hx Hy) as (w & H1 & H2 & _). unfold has_value in *. congruence.
Qed.

Lemma new_returns stat beta wmax eps ms KO k :
  (forall t n, (n = 10 \/ n = 16)%nat -> exists q, legendre t n = Ok q) -> 0 <= dd < / 2 ->
  0 < beta -> 0 < wmax -> stat = "F"%string \/ stat = "B"%string ->
  (forall K, KO = Some K -> Rabs (k_lambda K - beta * wmax) <= 4 / 10 ^ 16 * (beta * wmax)) ->
  (forall e, eps = Some e -> e <= 1) -> ms = None \/ (exists z, ms = Some (PyInt z) /\ (0 < z)%Z) ->
  let K := used_kernel (beta * wmax) KO in
  (forall x y, -1 <= x <= 1 -> -1 <= y <= 1 -> has_value f K x y (k x y)) ->
  (forall t n q gx gy alg h, legendre t n = Ok q ->
     piecewise q (half (segments_x K)) = Ok gx -> piecewise q (half (segments_y K)) = Ok gy ->
     let Ae := weighted (fun x y => k x y + k x (- y)) gx gy in
     exact_svd (length (rx gx)) (length (rx gy)) Ae (run alg Ae h)) ->
  exists o, new_basis stat beta wmax eps ms KO = Ok o.
Proof.
  intros Hr Hd Hb Hw Hst HK He Hms K Hk Hex.
  assert (HKl : 0 < k_lambda K).
  { unfold K. destruct KO as [K0|]; cbn; [|apply Rmult_lt_0_compat; auto]. specialize (HK K0 eq_refl). assert (0 < beta * wmax) by (apply Rmult_lt_0_compat; auto).
    assert (4 / 10 ^ 16 <= 1 / 2) by lra. assert (4 / 10 ^ 16 * (beta * wmax) <= 1 / 2 * (beta * wmax)) by (apply Rmult_le_compat_r; lra).
    apply Rabs_le_between in HK. lra. }
  destruct (returns have_xprec have_gejsv dd f legendre run argsort K (option_map Fin eps) None None None None None None Hsort Hrun) as [o Ho].
  { intros t n [H|[_ H]]; [discriminate|]. destruct (Hr t n H) as [q Hq]. exists q. split; [exact Hq|]. exact (Hleg _ _ _ Hq). }
  { left. reflexivity. } { auto. } { discriminate. } { intros _. split; [lra|discriminate]. }
  unfold new_basis. fold K. rewrite Ho.
  rewrite (proj2 (Rltb_true 0 beta) Hb). cbn [negb]. rewrite (proj2 (Rleb_true 0 wmax)) by lra. cbn [negb].
  assert (Hg : exists k0, get_kernel stat (beta * wmax) (option_map kern_of KO) = Ok k0).
  { unfold get_kernel. replace (stat_in stat) with true by (symmetry; apply stat_cases; tauto). cbn [negb]. destruct KO as [K0|]; cbn; [|eexists; reflexivity].
    unfold lam_close. rewrite (proj2 (Rleb_true _ _)); [eexists; reflexivity|]. rewrite (Rabs_right (beta * wmax)). apply HK; auto. apply Rle_ge, Rmult_le_pos; lra. }
  destruct Hg as [k0 ->]. cbn [bind]. destruct o as [r|]; [|eexists; reflexivity].
  assert (Hne : ss r <> []).
  { destruct (nonempty_centro _ _ _ _ _ _ _ Hleg Hsort Hrun _ _ _ _ _ _ _ _ Ho ltac:(discriminate)) with (k := k) as (t & n & q & gx & gy & alg & h & Hq & _ & Hx & Hy & H); auto.
    - intros _. split; [lra|discriminate].
    - discriminate.
    - intros x y Hx Hy. apply (kernel_positive K x y); auto; try lra. apply Hk; lra.
    - apply H. apply (Hex t n q gx gy alg h Hq Hx Hy). }
  pose proof (basis_input _ _ _ _ _ _ _ _ _ _ _ _ _ _ _ _ Hleg Hsort Hrun Ho Hne) as Hok.
  destruct (wellformed _ _ _ _ _ _ _ _ _ _ _ _ _ _ _ _ Hleg Hsort Hrun Ho) as (_ & _ & _ & _ & (e & t & strategy & wn & Hs & Es) & _).
  assert (e <= 1).
  { refine (safe_small _ dd _ _ _ _ _ _ _ Hs). lra. }
  assert (Hee : exists e', eff_eps eps (seps r) = Some e' /\ e' <= 1).
  { rewrite Es. destruct eps as [e0|]; cbn; [exists e0|exists e]; auto. }
  destruct Hee as (e' & H1 & H2).
  change (basis_init (fun _ _ => Ok r) stat beta wmax eps ms (option_map kern_of KO) None) with
      (basis_init (fun _ _ => Ok r) stat beta wmax eps ms (option_map kern_of KO) (Some r)).
  destruct (init_accepts (fun _ _ => Ok r) stat beta wmax eps ms (option_map kern_of KO) r e' Hb Hw Hst) as (b & Eb & _); auto.
  { destruct KO as [K0|]; [right|left; reflexivity]. exists (kern_of K0), (k_lambda K0). split; [reflexivity|]. split; [reflexivity|].
    rewrite (Rabs_right (beta * wmax)). apply HK; auto. apply Rle_ge, Rmult_le_pos; lra. }
  rewrite Eb. eexists; reflexivity.
Qed.
End New.

Lemma logistic_physical beta wmax t w : 0 < beta -> 0 < wmax ->
  in_physical (logistic_formula (beta * wmax)) 0 beta wmax t w = exp (- t * w) / (1 + exp (- beta * w)).
Proof.
  intros Hb Hw. unfold in_physical, logistic_formula.
  replace (- (beta * wmax) * (w / wmax) * (2 * t / beta - 1 + 1) / 2) with (- t * w) by (field; lra).
  replace (- (beta * wmax) * (w / wmax)) with (- beta * w) by (field; lra). cbn. ring.
Qed.

Lemma bose_physical beta wmax t w : 0 < beta -> 0 < wmax -> w <> 0 ->
  in_physical (bose_formula (beta * wmax)) 1 beta wmax t w = w * exp (- t * w) / (1 - exp (- beta * w)) / (wmax * wmax).
Proof.
  intros Hb Hw H0. unfold in_physical, bose_formula.
  replace (- (beta * wmax) * (w / wmax) * (2 * t / beta - 1 + 1) / 2) with (- t * w) by (field; lra).
  replace (- (beta * wmax) * (w / wmax)) with (- beta * w) by (field; lra).
  assert (1 - exp (- beta * w) <> 0).
  { intros E. assert (exp (- beta * w) = exp 0) as E1 by (rewrite exp_0; lra). apply exp_inv in E1. nra. }
  change (powerRZ wmax (- (1))) with (/ (wmax ^ 1)). rewrite pow_1. field. split; lra.
Qed.
