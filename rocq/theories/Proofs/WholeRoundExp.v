(** What sve.compute returns in rounded arithmetic is an expansion a basis can be made
    of. *)
From Coq Require Import String ZArith Arith Bool Reals Lra Lia Psatz.
From Coquelicot Require Import Coquelicot.
From Coq Require Import List Sorting.Sorted Sorting.Permutation.
From Verif.Model Require Import Base Util Num Gauss Poly PolyIEEE SVE Kernel KernelIEEE GaussIEEE Compute SVEIEEE.
From Verif.Spec Require Import SGauss SPoly SFT SSVE SBasis SKernel SCompute SKernelIEEE SGaussIEEE SPolyIEEE SRounded SSVEIEEE SBasisIEEE SWholeIEEE.
From Verif.Proofs Require Import BaseFacts PPolyFacts SVEFacts KernelSegs ComputePost ComputeSampling ComputeMerge ComputeMerged ComputeFull ComputeTheorems GaussRoundRule SegmentGaps CoefFun PostRound ComputeRound HalvedBlock ComputeRoundSymm RoundedReturns.
Import ListNotations.
Open Scope R_scope.
Notation length := List.length.

Lemma chained_nth (P : R -> R -> Prop) l i : chained P l -> (S i < length l)%nat -> P (nth i l 0) (nth (S i) l 0).
Proof.
  revert i. induction l as [|a [|b l] IH]; intros i H Hi; cbn [length] in Hi; [lia|lia|]. destruct H as [H1 H2]. destruct i; [exact H1|]. apply (IH i H2). cbn [length]. lia.
Qed.

Section Small.
Variables (u eta : R) (ro : R -> R).
Hypothesis Hu : / 10 ^ 90 <= u <= / 10000.
Hypothesis He : 0 <= eta.
Hypothesis Heu : eta * 10 ^ 300 <= u.
Hypothesis Hro : rounding u eta ro.

Lemma eta_fair d : / 10 ^ 100 <= d <= 2 -> 1000 * eta <= u * d /\ 1000 * eta * d <= u.
Proof.
  intros [D1 D2]. assert (P90 : 0 < 10 ^ 90) by (apply pow_lt; lra). assert (Pu : 0 < u). { assert (0 < / 10 ^ 90) by (apply Rinv_0_lt_compat; lra). lra. }
  assert (P100 : 0 < 10 ^ 100) by (apply pow_lt; lra). assert (E : 10 ^ 300 = 10 ^ 100 * 10 ^ 200) by (rewrite <- pow_add; reflexivity).
  assert (G : 10000 <= 10 ^ 200). { replace 10000 with (10 ^ 4) by (cbn; ring). apply Rle_pow; [lra|lia]. }
  assert (G1 : 1 <= 10 ^ 100) by (apply pow_R1_Rle; lra).
  assert (A : 10000 * eta <= u * / 10 ^ 100).
  { apply (Rmult_le_reg_r (10 ^ 100)); [exact P100|]. replace (u * / 10 ^ 100 * 10 ^ 100) with u by (field; lra). eapply Rle_trans; [|exact Heu]. rewrite E.
    replace (10000 * eta * 10 ^ 100) with (eta * (10 ^ 100 * 10000)) by ring. apply Rmult_le_compat_l; [exact He|]. apply Rmult_le_compat_l; lra. }
  assert (B : 10000 * eta <= u). { eapply Rle_trans; [exact A|]. rewrite <- (Rmult_1_r u) at 2. apply Rmult_le_compat_l; [lra|]. rewrite <- Rinv_1. apply Rinv_le_contravar; lra. }
  assert (D : u * / 10 ^ 100 <= u * d) by (apply Rmult_le_compat_l; lra). clear - A B D D1 D2 He Pu. split; [lra|]. assert (0 <= eta * (2 - d)) by (apply Rmult_le_pos; lra). lra.
Qed.

(** A set of polynomials made on ordinary segments of [-1, 1]. *)
Lemma made_stored n nseg dat knots symm p : poly_init_rd ro n nseg dat knots symm = Ok p -> (0 < n)%nat -> ordinary_edges knots ->
  nth 0 knots 0 = -1 -> nth (length knots - 1) knots 0 = 1 -> stored u eta p.
Proof.
  intros Hp Hn Ho H0 H1. pose proof (e_ok _ Ho) as [Hl Hs]. pose proof (poly_init_rd_inv _ _ _ _ _ _ _ Hp) as (H' & D & K & L & O & N & _).
  assert (Ln : length knots = S nseg) by (unfold poly_init in H'; destruct (Nat.eqb_spec (length knots) (S nseg)); [auto|discriminate]).
  split; [apply (made_near u eta ro n nseg dat knots symm p Hro ltac:(lia) Hs Hp)|].
  unfold gxmin, gxmax. rewrite K, N. split; [exact H0|]. split; [replace nseg with (length knots - 1)%nat by lia; exact H1|]. split; [|rewrite O, L; auto].
  intros i Hi. destruct Ho as (_ & Fo & Co). unfold fair_length, knot. rewrite K. apply eta_fair.
  pose proof (chained_nth _ _ i Co ltac:(lia)) as G. cbv beta in G. split; [lra|]. rewrite Forall_forall in Fo.
  pose proof (Fo _ (nth_In knots 0 (ltac:(lia) : (i < length knots)%nat))). pose proof (Fo _ (nth_In knots 0 (ltac:(lia) : (S i < length knots)%nat))). lra.
Qed.

(** Rounded values above a cutoff do not vanish. *)
Lemma kept_positive (rw : R -> R) rt M c x : rounding u eta rw -> 0 <= rt <= 1 -> rw (rt * M) <= c -> c < x -> 0 <= M -> 1000 * eta <= rt * ro M -> 0 < ro x.
Proof.
  intros [Hw [Hw0 _]] [R0 R1] Hc Hx HM Hs. destruct Hro as [Hr [Hr0 Hr1]]. clear Heu. assert (Pu : 0 < u). { assert (0 < / 10 ^ 90) by (apply Rinv_0_lt_compat, pow_lt; lra). lra. }
  assert (Hu' : u <= / 10000) by lra. clear Hu.
  assert (Px : 0 < x). { assert (0 <= rw (rt * M)) by (apply Hw0, Rmult_le_pos; lra). lra. }
  pose proof (Hr M) as A. rewrite (Rabs_pos_eq M) in A by lra. pose proof (Hr x) as B. rewrite (Rabs_pos_eq x) in B by lra.
  pose proof (Hw (rt * M)) as C. rewrite (Rabs_pos_eq (rt * M)) in C by (apply Rmult_le_pos; lra).
  apply Rabs_le_between in A, B, C. assert (Um : 0 <= u * M <= M / 1000) by nra. assert (Ux : 0 <= u * x <= x / 1000) by nra. assert (Uc : 0 <= rt * M) by (apply Rmult_le_pos; lra).
  assert (Uc' : 0 <= u * (rt * M) <= rt * M / 1000) by nra. assert (rt * ro M <= rt * (1001 / 1000 * M + eta)) by (apply Rmult_le_compat_l; lra).
  assert (rt * eta <= eta) by nra. lra.
Qed.
End Small.

Section Compute.
Variables (have_xprec have_gejsv : bool) (dd : R) (old : bool).
Variable rd : dtype -> R -> R.
Variable ro : R -> R.
Variable f : dtype -> tfun.
Variable dot : bool -> bool -> nat -> nat -> nat -> list R -> list R -> R.
Variable legendre : dtype -> nat -> res rule.
Variable run : svd_alg -> matrix -> Z -> usv.
Variable argsort : list R -> list nat.
Notation compute_rd := (compute_rd have_xprec have_gejsv dd old rd ro f dot legendre run argsort).
Variables (u eta : R).
Hypothesis Hu : / 10 ^ 90 <= u <= / 10000.
Hypothesis He : 0 <= eta.
Hypothesis Heu : eta * 10 ^ 300 <= u.
Hypothesis Hro : rounding u eta ro.
Hypothesis Hmono : forall x y, x <= y -> ro x <= ro y.
Hypothesis Hrd : forall t, rounding u eta (rd t).
Hypothesis Hsort : forall s, sorts s (argsort s).

(** The data type in use. *)
Lemma type_in_use eps work svds safe t strategy w : safe_eps have_xprec dd eps work svds = (safe, t, strategy, w) ->
  t = Float64 \/ (have_xprec = true /\ t = DDouble) \/ work = Some t.
Proof.
  unfold safe_eps. set (t' := match work with None => _ | Some t => t end).
  assert (E : t' = Float64 \/ (have_xprec = true /\ t' = DDouble) \/ work = Some t').
  { unfold t', max_dtype. destruct work; auto. destruct eps as [e|]; [destruct (xltb _ _)|]; destruct have_xprec; auto. }
  clearbody t'. destruct svds; [intros [= _ <- _ _]; auto|]. destruct eps as [e|]; [destruct (xltb _ _)|]; intros [= _ <- _ _]; auto.
Qed.

(** The values left by the truncation. *)
Definition left_over (rt : R) (t : dtype) (c : R) (vals : list R) : Prop :=
  exists M, In M vals /\ (forall y, In y vals -> y <= M) /\ rd t (rt * M) <= c.

Lemma cutoff_left rt t lmax vals c : vals <> [] -> cutoff_of_rd (rd t) rt lmax vals = Ok c -> left_over rt t c vals.
Proof.
  intros Hv Hc. destruct (rsort_last vals Hv) as [H1 H2]. exists (last (rsort vals) 0). split; [exact H1|]. split; [exact H2|].
  unfold cutoff_of_rd in Hc. destruct lmax as [[z|x]|]; [destruct (_ <? _)%Z|destruct (negb _); [discriminate|]|]; injection Hc as <-; try lra. apply Rmax_l.
Qed.

(** Rounded values above the cutoff: positive, if one of them is not tiny. *)
Lemma left_positive rt t c vals zs s0 : left_over rt t c vals -> Forall (fun x => 0 <= x) vals -> 0 <= rt <= 1 ->
  (forall z, In z zs -> exists y, z = ro y /\ In y vals /\ c < y) -> In s0 zs -> 1000 * eta <= rt * s0 -> Forall (fun x => 0 < x) zs.
Proof.
  intros (M & HM & Hmax & Hc) Hp Hr Hy Hs Hb. apply Forall_forall. intros x Hx. destruct (Hy x Hx) as (y & -> & Y1 & Y2).
  rewrite Forall_forall in Hp. destruct (Hy s0 Hs) as (y0 & -> & Y3 & _).
  apply (kept_positive u eta ro Hu He Hro (rd t) rt M c y (Hrd t) Hr Hc Y2 (Hp _ HM)). eapply Rle_trans; [exact Hb|]. apply Rmult_le_compat_l; [lra|]. apply Hmono, Hmax, Y3.
Qed.

Lemma cutoff_range cutoff work s0 t rt : fair_cutoff have_xprec eta dd cutoff work s0 ->
  t = Float64 \/ (have_xprec = true /\ t = DDouble) \/ work = Some t ->
  match cutoff with None => Fin (default_cutoff dd t) | Some c => c end = Fin rt -> 0 <= rt <= 1 /\ 1000 * eta <= rt * s0.
Proof. intros [F1 F2] Ht E. destruct cutoff as [c|]; [subst c; apply F1; reflexivity|]. injection E as <-. apply (F2 eq_refl t Ht). Qed.

Lemma in_firstn {A} k (l : list A) x : In x (firstn k l) -> In x l.
Proof. intros H. rewrite <- (firstn_skipn k l). apply in_app_iff. auto. Qed.

Lemma map_ro_sorted l : nonincreasing l -> nonincreasing (map ro l).
Proof.
  unfold nonincreasing. induction 1 as [|a l S IH F]; cbn [map]; constructor; auto. rewrite Forall_forall in *. intros x Hx. apply in_map_iff in Hx as (y & <- & Hy). apply Hmono, F, Hy.
Qed.

Lemma firstn_sorted k l : nonincreasing l -> nonincreasing (firstn k l).
Proof.
  unfold nonincreasing. intros S. revert k. induction S as [|a l S IH F]; intros [|k]; cbn [firstn]; constructor; auto. rewrite Forall_forall in *. intros x Hx. apply F, (in_firstn k), Hx.
Qed.

Section One.
Variables (K : kernel) (eps cutoff : option xr) (n_sv : option pynum) (ng : option nat) (work : option dtype) (svds : option string) (r : sve_result).
Hypothesis HK : 0 < k_lambda K <= 10 ^ 16.
Hypothesis Hsh : decompositions_shaped rd f legendre run K.
Hypothesis Hne : ss r <> [].
Hypothesis Hfc : fair_cutoff have_xprec eta dd cutoff work (nth 0 (ss r) 0).

Lemma sample_struct : compute_rd K eps cutoff n_sv ng work (Some SampleStrat) svds = Ok (Some r) ->
  exists t rt c M alg h, let s := svals (run alg M h) in
  (t = Float64 \/ (have_xprec = true /\ t = DDouble) \/ work = Some t) /\
  match cutoff with None => Fin (default_cutoff dd t) | Some c => c end = Fin rt /\ s <> [] /\ cutoff_of_rd (rd t) rt n_sv s = Ok c /\
  ss r = map ro (firstn (count_above c s) s) /\ Forall (fun x => 0 <= x) s /\ nonincreasing s /\
  stored u eta (su r) /\ stored u eta (sv r) /\ length (vcols (su r)) = length (ss r) /\ length (vcols (sv r)) = length (ss r) /\
  gknots (vgeom (su r)) = segments_x K /\ gknots (vgeom (sv r)) = segments_y K.
Proof.
  clear Hne Hfc.
  unfold SVEIEEE.compute_rd. intros H. destruct (safe_eps _ _ _ _ _) as [[[safe t] strategy] w] eqn:E0. pose proof (type_in_use _ _ _ _ _ _ _ E0) as Tu.
  destruct (sampling_init_rd _ _ (full_kern_rd _ _ K safe) safe ng) as [S|] eqn:E2; [|discriminate]. cbn [bind] in H.
  destruct (sampled_matrix_rd _ S) as [A|] eqn:E5; [|discriminate]. cbn [bind] in H.
  destruct (svd_compute _ _ _ _ A _ _) as [b|] eqn:E6; [|discriminate]. cbn [bind] in H. apply svd_rd_inv in E6 as (alg & h & Eb).
  destruct (truncate_rd _ _ _ _) as [cut|] eqn:E9; [|discriminate]. cbn [bind] in H. apply truncate_rd_cut in E9 as (rt & c & Ert & _ & Hv & Hc & ->). cbn [map] in H.
  destruct (sampling_init_rd_inv _ _ _ _ _ _ E2) as (L & X & Y & Px & Py & M & Es & _ & N). cbn [full_kern_rd sk_segs_x sk_segs_y sk_matrix sk_ngauss] in *.
  injection X as X. injection Y as Y. destruct (Hsh _ _ _ L) as (Hn & Sh & _).
  pose proof (sampled_matrix_of _ _ _ Px Py E5) as HM. rewrite M, <- X, <- Y in HM. specialize (Sh A alg h HM). rewrite <- Eb in Sh.
  destruct b as [[us s] vs]. destruct Sh as (Lu & Lv & _ & Ni & Pos). unfold cut_block in H. cbn [fst snd bvals] in H. set (kk := count_above c s) in *.
  pose proof (proj1 (hinted_edges K _ HK (or_introl eq_refl))) as Ox. pose proof (proj1 (hinted_edges K _ HK (or_intror eq_refl))) as Oy. rewrite X in Ox. rewrite Y in Oy.
  destruct (segments_valid K) as [Vx Vy]. rewrite X in Vx. rewrite Y in Vy. destruct (full_edges _ Vx) as (Ex & X0 & X1 & _). destruct (full_edges _ Vy) as (Ey & Y0 & Y1 & _).
  destruct (post_rd_struct old (rd t) ro (dot true) S (firstn kk us) (firstn kk s) (firstn kk vs) r Hn Ex Ey) as (On & Ess & _); [rewrite !firstn_length; lia|rewrite !firstn_length; lia|exact H|].
  destruct On as (_ & _ & _ & _ & _ & _ & N1 & N2). cbn [ideal_sve su sv ss ideal vcols] in N1, N2.
  assert (St : (stored u eta (su r) /\ stored u eta (sv r)) /\ gknots (vgeom (su r)) = segments_x K /\ gknots (vgeom (sv r)) = segments_y K).
  { unfold sampling_post_rd in H. destruct (poly_init_rd ro (s_n S) (length (s_segs_x S) - 1) _ _ _) as [pu|] eqn:Eu; [|discriminate]. cbn [bind] in H.
    destruct (poly_init_rd ro (s_n S) (length (s_segs_y S) - 1) _ _ _) as [pv|] eqn:Ev; [|discriminate]. cbn [bind] in H.
    destruct (canonicalize_rd _ _ _ _) as [[cu cv]|]; [|discriminate]. cbn [bind] in H. destruct (all_some cu) as [cu'|]; [|discriminate]. injection H as <-. cbn [su sv].
    pose proof (made_stored u eta ro Hu He Heu Hro _ _ _ _ _ _ Eu Hn Ox X0 X1) as A1. pose proof (made_stored u eta ro Hu He Heu Hro _ _ _ _ _ _ Ev Hn Oy Y0 Y1) as A2.
    pose proof (poly_init_rd_inv _ _ _ _ _ _ _ Eu) as (_ & _ & K1 & _). pose proof (poly_init_rd_inv _ _ _ _ _ _ _ Ev) as (_ & _ & K2 & _). rewrite X, Y.
    split; [split; [exact A1|exact A2]|split; [exact K1|exact K2]]. }
  destruct St as [[Su Sv] [Kx Ky]]. rewrite all_values_concat in Hv, Hc. cbn [map concat bvals fst snd] in Hv, Hc. rewrite app_nil_r in Hv, Hc.
  exists t, rt, c, A, alg, h. rewrite <- Eb. cbv zeta. cbn [svals fst snd]. fold kk. repeat (split; [assumption|]). exact Ky.
Qed.

Lemma expansion_sample : compute_rd K eps cutoff n_sv ng work (Some SampleStrat) svds = Ok (Some r) -> expansion_near u eta r.
Proof.
  intros H. destruct (sample_struct H) as (t & rt & c & M & alg & h & Z). cbv zeta in Z. destruct Z as (Tu & Ert & Hv & Hc & Ess & Pos & Ni & Su & Sv & N1 & N2 & _).
  destruct (cutoff_range _ _ _ _ _ Hfc Tu Ert) as [Rt1 Rt2]. set (s := svals (run alg M h)) in *. set (kk := count_above c s) in *.
  split; [exact Su|]. split; [exact Sv|]. split; [exact N1|]. split; [exact N2|]. split; [exact Hne|]. split.
  - apply (left_positive rt t c s (ss r) (nth 0 (ss r) 0)); auto.
    + apply (cutoff_left rt t n_sv s c Hv Hc).
    + rewrite Ess. intros z Hz. apply in_map_iff in Hz as (y & <- & Hy). exists y. split; [reflexivity|]. split; [apply (in_firstn kk), Hy|].
      destruct (cut_sides c (fst (fst (run alg M h)), s, snd (run alg M h)) Ni) as [Ca _]. unfold cut_block in Ca. cbn [svals fst snd bvals] in Ca. fold kk in Ca. rewrite Forall_forall in Ca. apply Ca, Hy.
    + apply nth_In. destruct (ss r); [congruence|cbn; lia].
  - rewrite Ess. apply map_ro_sorted, firstn_sorted, Ni.
Qed.

(** With symmetrisation: the values left are the rounded values of the two parts above
    the cutoff. *)
Lemma symm_struct st : compute_rd K eps cutoff n_sv ng work st svds = Ok (Some r) -> st <> Some SampleStrat ->
  exists t rt c Me alge he Mo algo ho, let se := svals (run alge Me he) in let so := svals (run algo Mo ho) in
  (t = Float64 \/ (have_xprec = true /\ t = DDouble) \/ work = Some t) /\
  match cutoff with None => Fin (default_cutoff dd t) | Some c => c end = Fin rt /\ se ++ so <> [] /\ cutoff_of_rd (rd t) rt n_sv (se ++ so) = Ok c /\
  Permutation (ss r) (map ro (firstn (count_above c se) se) ++ map ro (firstn (count_above c so) so)) /\
  Forall (fun x => 0 <= x) se /\ Forall (fun x => 0 <= x) so /\ nonincreasing se /\ nonincreasing so /\
  stored u eta (su r) /\ stored u eta (sv r) /\ length (vcols (su r)) = length (ss r) /\ length (vcols (sv r)) = length (ss r) /\ nonincreasing (ss r) /\
  gknots (vgeom (su r)) = segments_x K /\ gknots (vgeom (sv r)) = segments_y K.
Proof.
  clear Hne Hfc.
  unfold SVEIEEE.compute_rd. intros H Hst. destruct (safe_eps _ _ _ _ _) as [[[safe t] strategy] w] eqn:E0. pose proof (type_in_use _ _ _ _ _ _ _ E0) as Tu.
  set (rtol := match cutoff with None => _ | Some c => c end) in H.
  assert (H' : (do Ke <- get_symmetrized K 1;
      do even <- sampling_init_rd (rd t) (legendre t) (reduced_kern_rd (rd t) (f t) Ke safe) safe ng;
      do Ko <- get_symmetrized K (-1);
      do odd <- sampling_init_rd (rd t) (legendre t) (reduced_kern_rd (rd t) (f t) Ko safe) safe ng;
      do Ae <- sampled_matrix_rd (rd t) even;
      do be <- svd_compute have_xprec have_gejsv run t Ae (Z.max (s_hint even) (s_hint odd)) strategy;
      do Ao <- sampled_matrix_rd (rd t) odd;
      do bo <- svd_compute have_xprec have_gejsv run t Ao (Z.max (s_hint even) (s_hint odd)) strategy;
      do cut <- truncate_rd (rd t) [be; bo] rtol n_sv;
      match cut with
      | [be; bo] =>
          do re <- sampling_post_rd old (rd t) ro (dot true) even be;
          do ro' <- sampling_post_rd old (rd t) ro (dot false) odd bo;
          match re, ro' with
          | Some re, Some ro' => do r <- merge_rd ro argsort safe (segments_x K) (segments_y K) re ro'; Ok (Some r)
          | _, _ => Ok None
          end
      | _ => Raise ValueError
      end) = Ok (Some r)) by (destruct st as [[]|]; try congruence; exact H).
  clear H. rename H' into H.
  destruct (get_symmetrized K 1) as [Ke|] eqn:E1; [|discriminate]. cbn [bind] in H.
  destruct (sampling_init_rd _ _ (reduced_kern_rd _ _ Ke safe) safe ng) as [even|] eqn:E2; [|discriminate]. cbn [bind] in H.
  destruct (get_symmetrized K (-1)) as [Ko|] eqn:E3; [|discriminate]. cbn [bind] in H.
  destruct (sampling_init_rd _ _ (reduced_kern_rd _ _ Ko safe) safe ng) as [odd|] eqn:E4; [|discriminate]. cbn [bind] in H.
  destruct (sampled_matrix_rd _ even) as [Ae|] eqn:E5; [|discriminate]. cbn [bind] in H.
  destruct (svd_compute _ _ _ _ Ae _ _) as [be|] eqn:E6; [|discriminate]. cbn [bind] in H.
  destruct (sampled_matrix_rd _ odd) as [Ao|] eqn:E7; [|discriminate]. cbn [bind] in H.
  destruct (svd_compute _ _ _ _ Ao _ _) as [bo|] eqn:E8; [|discriminate]. cbn [bind] in H.
  apply svd_rd_inv in E6 as (alge & he & Ebe). apply svd_rd_inv in E8 as (algo & ho & Ebo).
  destruct (truncate_rd _ _ _ _) as [cut|] eqn:E9; [|discriminate]. cbn [bind] in H. apply truncate_rd_cut in E9 as (rt & c & Ert & _ & Hv & Hc & ->). cbn [map] in H.
  destruct (sampling_post_rd _ _ _ _ even _) as [re|] eqn:Pe; [|discriminate]. cbn [bind] in H.
  destruct (sampling_post_rd _ _ _ _ odd _) as [ro'|] eqn:Po; [|discriminate]. cbn [bind] in H.
  destruct re as [re|], ro' as [ro'|]; try discriminate.
  destruct (merge_rd _ _ _ _ _ _) as [r'|] eqn:Hm; [|discriminate]. cbn [bind] in H. injection H as ->.
  destruct (reduced_segs_rd rd f legendre _ _ _ _ _ _ _ E1 E2) as (X1 & Y1 & Hx & Hy & Mx & My & L1 & Gx1 & Gy1 & M1 & _ & N1).
  destruct (reduced_segs_rd rd f legendre _ _ _ _ _ _ _ E3 E4) as (X2 & Y2 & _ & _ & _ & _ & L2 & Gx2 & Gy2 & M2 & _ & N2).
  assert (Nn : s_n odd = s_n even) by congruence.
  pose proof (sampled_matrix_of _ _ _ Gx1 Gy1 E5) as SMe. rewrite M1, X1, Y1 in SMe. pose proof (sampled_matrix_of _ _ _ Gx2 Gy2 E7) as SMo. rewrite M2, X2, Y2 in SMo.
  destruct (Hsh _ _ _ L1) as (Hn & _ & She). destruct (Hsh _ _ _ L2) as (_ & _ & Sho).
  specialize (She 1 Ke Ae alge he (or_introl eq_refl) E1 SMe). specialize (Sho (-1) Ko Ao algo ho (or_intror eq_refl) E3 SMo). rewrite <- Ebe in She. rewrite <- Ebo in Sho.
  destruct be as [[use se] vse]. destruct bo as [[uso so] vso]. destruct She as (Lue & Lve & _ & Nie & Pose). destruct Sho as (Luo & Lvo & _ & Nio & Poso).
  unfold cut_block in Pe, Po. cbn [fst snd bvals] in Pe, Po.
  assert (Exx : edges_ok (half (segments_x K))) by apply Hx. assert (Eyy : edges_ok (half (segments_y K))) by apply Hy.
  pose proof (fun A B C D => post_rd_struct old (rd t) ro (dot true) even _ _ _ re Hn A B C D Pe) as One. rewrite X1, Y1 in One.
  pose proof (fun A B C D E => post_rd_struct old (rd t) ro (dot false) odd _ _ _ ro' A B C D E Po) as Ono. rewrite X2, Y2, Nn in Ono.
  assert (Lf : forall k (a b : list (list R)) (s : list R), length a = length s -> length b = length s -> length (firstn k a) = length (firstn k s) /\ length (firstn k b) = length (firstn k s)) by (clear; intros k a b s A B; rewrite !firstn_length, A, B; auto).
  destruct (Lf (count_above c se) use vse se Lue Lve) as [Lf1 Lf2]. destruct (Lf (count_above c so) uso vso so Luo Lvo) as [Lf3 Lf4].
  specialize (One Exx Eyy Lf1 Lf2). specialize (Ono Hn Exx Eyy Lf3 Lf4). clear Lf Lf1 Lf2 Lf3 Lf4. destruct One as (One & Se & _). destruct Ono as (Ono & So & _).
  assert (Z0 : ro 0 = 0). { destruct Hro as (_ & Z1 & Z2). specialize (Z1 0 ltac:(lra)). specialize (Z2 0 ltac:(lra)). lra. }
  pose proof (merge_ideal ro argsort safe _ _ _ _ _ Z0 Hm) as Hmi. rewrite <- Mx, <- My in Hmi.
  pose proof (unhalved_on ro _ _ _ _ One) as On1. pose proof (unhalved_on ro _ _ _ _ Ono) as On2.
  destruct (merge_sorted argsort safe (s_n even) _ _ _ _ Hx Hy On1 On2 (Hsort _)) as (rr & Em & Onr & _ & _ & _ & _ & _ & Ni & Perm).
  rewrite Em in Hmi. injection Hmi as ->. destruct Onr as (_ & _ & _ & _ & _ & _ & C1 & C2). cbn [ideal_sve su sv ss ideal vcols] in C1, C2. cbn [ideal_sve ss unhalved] in Ni, Perm.
  destruct (segments_valid K) as [Vx Vy]. destruct (full_edges _ Vx) as (_ & X0 & X1' & _). destruct (full_edges _ Vy) as (_ & Y0 & Y1' & _).
  pose proof (proj1 (hinted_edges K _ HK (or_introl eq_refl))) as Ox. pose proof (proj1 (hinted_edges K _ HK (or_intror eq_refl))) as Oy.
  assert (G1 : glen (vgeom (su re)) = s_n even) by apply One. assert (G2 : glen (vgeom (sv re)) = s_n even) by apply One.
  assert (St : (stored u eta (su r) /\ stored u eta (sv r)) /\ gknots (vgeom (su r)) = segments_x K /\ gknots (vgeom (sv r)) = segments_y K).
  { unfold merge_rd in Hm. cbv zeta in Hm. destruct (poly_init_rd _ (glen (vgeom (su re))) _ _ _ _) as [pu|] eqn:Eu; [|discriminate]. cbn [bind] in Hm.
    destruct (poly_init_rd _ (glen (vgeom (sv re))) _ _ _ _) as [pv|] eqn:Ev; [|discriminate]. cbn [bind] in Hm. injection Hm as <-. cbn [su sv].
    pose proof (poly_init_rd_inv _ _ _ _ _ _ _ Eu) as (_ & _ & K1 & _). pose proof (poly_init_rd_inv _ _ _ _ _ _ _ Ev) as (_ & _ & K2 & _). split; [|auto].
    split; [apply (made_stored u eta ro Hu He Heu Hro _ _ _ _ _ _ Eu ltac:(lia) Ox X0 X1')|apply (made_stored u eta ro Hu He Heu Hro _ _ _ _ _ _ Ev ltac:(lia) Oy Y0 Y1')]. }
  destruct St as [[Su Sv] [Kx Ky]]. rewrite all_values_concat in Hv, Hc. cbn [map concat bvals fst snd] in Hv, Hc. rewrite app_nil_r in Hv, Hc.
  exists t, rt, c, Ae, alge, he, Ao, algo, ho. rewrite <- Ebe, <- Ebo. cbv zeta. cbn [svals fst snd]. rewrite Se, So in Perm.
  repeat (split; [assumption|]). exact Ky.
Qed.

Lemma expansion_symm st : compute_rd K eps cutoff n_sv ng work st svds = Ok (Some r) -> st <> Some SampleStrat -> expansion_near u eta r.
Proof.
  intros H Hst. destruct (symm_struct st H Hst) as (t & rt & c & Me & alge & he & Mo & algo & ho & Z). cbv zeta in Z.
  destruct Z as (Tu & Ert & Hv & Hc & Perm & Pose & Poso & Nie & Nio & Su & Sv & C1 & C2 & Ni & _).
  destruct (cutoff_range _ _ _ _ _ Hfc Tu Ert) as [Rt1 Rt2]. set (se := svals (run alge Me he)) in *. set (so := svals (run algo Mo ho)) in *.
  split; [exact Su|]. split; [exact Sv|]. split; [exact C1|]. split; [exact C2|]. split; [exact Hne|]. split; [|exact Ni].
  destruct (cut_sides c (fst (fst (run alge Me he)), se, snd (run alge Me he)) Nie) as [Ca _]. destruct (cut_sides c (fst (fst (run algo Mo ho)), so, snd (run algo Mo ho)) Nio) as [Cb _]. unfold cut_block in Ca, Cb. cbn [svals fst snd bvals] in Ca, Cb.
  rewrite Forall_forall in Ca, Cb.
  apply (left_positive rt t c (se ++ so) (ss r) (nth 0 (ss r) 0)); auto.
  - apply (cutoff_left rt t n_sv _ c Hv Hc).
  - apply Forall_app. auto.
  - intros z Hz. eapply Permutation_in in Hz; [|exact Perm]. apply in_app_iff in Hz as [Hz|Hz]; apply in_map_iff in Hz as (y & <- & Hy'); exists y; (split; [reflexivity|]).
    + split; [apply in_app_iff; left; eapply in_firstn, Hy'|apply Ca, Hy'].
    + split; [apply in_app_iff; right; eapply in_firstn, Hy'|apply Cb, Hy'].
  - apply nth_In. destruct (ss r); [congruence|cbn; lia].
Qed.
End One.
End Compute.
