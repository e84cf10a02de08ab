(** sve.compute in rounded arithmetic returns. *)
From Coq Require Import String ZArith Arith Bool Reals Lra Lia Psatz.
From Coquelicot Require Import Coquelicot.
From Coq Require Import List Sorting.Sorted Sorting.Permutation.
From Verif.Model Require Import Base Util Num Gauss Poly PolyIEEE SVE Kernel KernelIEEE GaussIEEE Compute SVEIEEE.
From Verif.Spec Require Import SGauss SPoly SFT SSVE SBasis SKernel SCompute SSingular SWhole SNear SComputed SKernelIEEE SGaussIEEE SRounded SSVEIEEE SRoundedCompute.
From Verif.Proofs Require Import BaseFacts SumFacts IntFacts LegFacts GaussFacts GaussExact PPolyFacts PPolyInt SVEFacts BasisPhys KernelProps KernelSegs ComputeNodes ComputePost ComputeSampling ComputeMerge ComputeMerged ComputeError ComputeFull ComputeDefined CoefFun PostRound ComputeRound HalvedBlock ComputeRoundSymm.
Import ListNotations.
Open Scope R_scope.
Notation length := List.length.

(** * Truncation *)
Lemma sig_max_rd rd vals r x : vals <> [] ->
  (forall M, In M vals -> (forall y, In y vals -> y <= M) -> rd (r * M) < x) <-> rd (r * last (rsort vals) 0) < x.
Proof.
  intros H. destruct (rsort_last vals H) as [H1 H2]. split.
  - intros Hx. apply Hx; auto.
  - intros Hx M HM Hmax. assert (M = last (rsort vals) 0) by (apply Rle_antisym; auto). subst. auto.
Qed.

(** The cutoff singles out the significant values. *)
Lemma cutoff_significant_rd rd vals r lmax c x : vals <> [] -> check_lmax lmax = Ok tt ->
  cutoff_of_rd rd r lmax vals = Ok c -> In x vals -> (c < x <-> significant_rd rd vals r lmax x).
Proof.
  intros Hv Hl Hc Hx. unfold significant_rd. rewrite sig_max_rd by auto. unfold cutoff_of_rd in Hc.
  destruct lmax as [[z|f]|].
  - simpl in Hl. destruct (z <? 0)%Z eqn:E0; [easy|]. apply Z.ltb_ge in E0.
    destruct (z <? Z.of_nat (length vals))%Z eqn:E1.
    + apply Z.ltb_lt in E1. injection Hc as <-. simpl within. rewrite <- cut_iff by lia.
      split.
      * intros H. pose proof (Rmax_l (rd (r * last (rsort vals) 0)) (nth (Z.to_nat (Z.of_nat (length vals) - z - 1)) (rsort vals) 0)).
        pose proof (Rmax_r (rd (r * last (rsort vals) 0)) (nth (Z.to_nat (Z.of_nat (length vals) - z - 1)) (rsort vals) 0)). lra.
      * intros [H1 H2]. apply Rmax_lub_lt; auto.
    + apply Z.ltb_ge in E1. injection Hc as <-. simpl within. split; [|tauto]. intros H; split; auto.
      apply Z.le_trans with (2 := E1). apply inj_le, filter_le.
  - destruct f as [f| | |]; try easy.
    destruct (negb (xleb (Fin (IZR (Z.of_nat (length vals)))) (Fin f))) eqn:E; [easy|].
    injection Hc as <-. simpl within. split; [|tauto]. intros H; split; auto.
    apply negb_false_iff in E. simpl in E. apply Rleb_true in E. rewrite <- INR_IZR_INZ in E.
    apply Rle_trans with (2 := E). apply le_INR, filter_le.
  - injection Hc as <-. simpl. tauto.
Qed.

(** At most lmax values exceed the cutoff. *)
Lemma cutoff_limit_rd rd vals r lmax c : vals <> [] -> check_lmax lmax = Ok tt ->
  cutoff_of_rd rd r lmax vals = Ok c -> within (count_above c vals) lmax.
Proof.
  intros Hv Hl Hc. unfold count_above. destruct (filter (fun x => Rltb c x) vals) as [|x0 l0] eqn:E.
  - destruct lmax as [[z|[f| | |]]|]; simpl in *; auto; try easy.
    + destruct (z <? 0)%Z eqn:E0; [easy|]. apply Z.ltb_ge in E0. lia.
    + destruct (Rltb f 0 || negb (Reqb (IZR (Rtrunc f)) f)) eqn:E0; [easy|].
      apply orb_false_iff in E0. destruct E0 as [E0 _]. apply Rltb_false in E0. auto.
  - (* the least value above the cutoff *)
    set (k := filter (fun x => Rltb c x) vals) in *.
    assert (Hk : forall y, In y k -> In y vals /\ c < y).
    { intros y Hy. apply filter_In in Hy. rewrite Rltb_true in Hy. auto. }
    assert (Hm : In (nth 0 (rsort k) 0) k /\ forall y, In y k -> nth 0 (rsort k) 0 <= y).
    { pose proof (rsort_perm k) as P. pose proof (rsort_sorted k) as S.
      destruct (rsort k) as [|m t] eqn:Ek.
      - apply Permutation_sym, Permutation_nil in P. rewrite P in E. easy.
      - simpl. split; [apply (Permutation_in _ (Permutation_sym P)); simpl; auto|].
        intros y Hy. apply (Permutation_in _ P) in Hy. destruct Hy as [<-|Hy]; [lra|].
        inversion S; subst. rewrite Forall_forall in H2. auto. }
    destruct Hm as [Hm1 Hm2]. set (m := nth 0 (rsort k) 0) in *.
    destruct (Hk m Hm1) as [Hmv Hmc].
    assert (W : within (length (filter (fun y => Rleb m y) vals)) lmax)
      by (apply (proj1 (cutoff_significant_rd rd vals r lmax c m Hv Hl Hc Hmv)); auto).
    assert (Le : (length k <= length (filter (fun y => Rleb m y) vals))%nat).
    { unfold k. apply filter_incl_len. intros y Hy Hcy. apply Rleb_true. apply Hm2.
      unfold k. apply filter_In. auto. }
    rewrite <- E. clearbody k. clear - W Le.
    destruct lmax as [[z|[f| | |]]|]; simpl in *; auto; try lia.
    apply le_INR in Le. lra.
Qed.

Lemma truncate_rd_cut {A B} rd (blocks : list (block A B)) rtol lmax out : truncate_rd rd blocks rtol lmax = Ok out ->
  exists r c, rtol = Fin r /\ check_lmax lmax = Ok tt /\ all_values blocks <> [] /\ cutoff_of_rd rd r lmax (all_values blocks) = Ok c /\ out = map (cut_block c) blocks.
Proof.
  unfold truncate_rd. destruct (check_lmax lmax) as [[]|]; [|discriminate]. destruct (check_rtol rtol) as [r|] eqn:Er; [|discriminate]. cbn [bind].
  apply check_rtol_iff in Er as [Er _]. rewrite all_values_concat.
  destruct blocks as [|b0 bs]; [discriminate|]. set (blocks := b0 :: bs) in *. clearbody blocks. destruct (concat _) as [|v0 l0]; [discriminate|]. destruct (cutoff_of_rd _ _ _ _) as [c|] eqn:Ec; [|discriminate].
  cbn [bind]. intros [= <-]. exists r, c.
  split; [exact Er|]. split; [reflexivity|]. split; [discriminate|]. auto.
Qed.

Lemma truncate_rd_sorted {A B} rd (blocks : list (block A B)) rtol lmax out : truncate_rd rd blocks (Fin rtol) lmax = Ok out ->
  Forall (fun b => nonincreasing (snd (fst b))) blocks -> within (length (all_values out)) lmax /\
  forall i b b' j x, nth_error blocks i = Some b -> nth_error out i = Some b' -> nth_error (snd (fst b)) j = Some x ->
    (exists k, prefix_of k b b') /\ (nth_error (snd (fst b')) j = Some x \/ nth_error (snd (fst b')) j = None) /\ (nth_error (snd (fst b')) j = Some x <-> significant_rd rd (all_values blocks) rtol lmax x).
Proof.
  intros H Hs. destruct (truncate_rd_cut _ _ _ _ _ H) as (r & c & [= <-] & Hl & Hv & Hc & ->). split.
  { rewrite cut_total. eapply cutoff_limit_rd; eauto. }
  intros i b b' j x Hb Hb' Hj. rewrite nth_error_map, Hb in Hb'. injection Hb' as <-. split; [eexists; apply cut_prefix|]. unfold cut_block. cbn [fst snd]. fold (bvals b) in *.
  assert (Hx : In x (all_values blocks)). { unfold all_values. apply in_flat_map. exists b. split; [eapply nth_error_In; eauto|eapply nth_error_In; eauto]. }
  rewrite <- (cutoff_significant_rd _ _ _ _ _ _ Hv Hl Hc Hx).
  rewrite Forall_forall in Hs. assert (Hsb : nonincreasing (bvals b)) by (apply Hs; eapply nth_error_In; eauto).
  rewrite <- (sorted_count_index c _ _ _ Hsb Hj). set (k := count_above c (bvals b)).
  destruct (lt_dec j k) as [Hlt|Hge].
  - assert (E : nth_error (firstn k (bvals b)) j = Some x).
    { rewrite <- Hj. rewrite <- (firstn_skipn k (bvals b)) at 2. rewrite nth_error_app1; auto. rewrite firstn_length_le; auto. apply count_le. }
    rewrite E. tauto.
  - assert (E : nth_error (firstn k (bvals b)) j = None) by (apply nth_error_None; rewrite firstn_length; lia).
    rewrite E. split; [auto|]. split; [easy|lia].
Qed.

Lemma truncate_rd_defined {A B} rd (blocks : list (block A B)) rtol r lmax : valid_rtol rtol r ->
  (lmax = None \/ exists z, lmax = Some (PyInt z) /\ (0 <= z)%Z) -> all_values blocks <> [] -> exists out, truncate_rd rd blocks rtol lmax = Ok out.
Proof.
  intros Hr Hl Hv. unfold truncate_rd.
  assert (E : check_lmax lmax = Ok tt). { destruct Hl as [->|(z & -> & Hz)]; auto. cbn. rewrite (proj2 (Z.ltb_ge z 0)) by lia. auto. }
  rewrite E, (proj2 (check_rtol_iff _ _) Hr). cbn [bind]. rewrite all_values_concat in Hv.
  destruct blocks as [|b bs]; [easy|]. destruct (concat (map bvals (b :: bs))) as [|x l] eqn:Ec; [easy|].
  unfold cutoff_of_rd. destruct Hl as [->|(z & -> & Hz)]; [eexists; reflexivity|].
  destruct (z <? _)%Z; cbn [bind]; eexists; reflexivity.
Qed.

(** * The steps *)
Lemma poly_init_rd_some rd order nseg dat knots symm :
  length knots = S nseg -> (forall i, (i < nseg)%nat -> nth i knots 0 <= nth (S i) knots 0) ->
  (match symm with None => True | Some s => length s = length dat end) ->
  exists p, poly_init_rd rd order nseg dat knots symm = Ok p.
Proof.
  intros H1 H2 H3. destruct (poly_init_some order nseg dat knots symm H1 H2 H3) as (p & E & _). unfold poly_init_rd. rewrite E. cbn [bind]. eauto.
Qed.

Lemma vcall_rd_defined old rd order nseg dat knots symm p x : poly_init_rd rd order nseg dat knots symm = Ok p -> (0 < order)%nat -> (0 < nseg)%nat ->
  hd 0 knots <= x <= last knots 0 -> length knots = S nseg -> exists ys, vcall_rd old rd p x = Ok ys.
Proof.
  intros H Ho Hn Hx Hl. apply poly_init_rd_inv in H as (_ & _ & K & L & _ & N & _). unfold vcall_rd, split_rd, in_range, gxmin, gxmax. rewrite K, N, L.
  replace (nth 0 knots 0) with (hd 0 knots) by (destruct knots; reflexivity).
  replace (nth nseg knots 0) with (last knots 0) by (rewrite <- nth_last; f_equal; lia).
  rewrite !(proj2 (Rleb_true _ _)) by lra. cbn [andb negb]. destruct nseg; [lia|]. cbn [bind]. destruct order; [lia|]. eauto.
Qed.

Lemma post_rd_defined old rw ro dot S us s vs : (0 < s_n S)%nat -> edges_ok (s_segs_x S) -> edges_ok (s_segs_y S) ->
  hd 0 (s_segs_x S) <= 1 <= last (s_segs_x S) 0 ->
  (exists o, sampling_post_rd old rw ro dot S (us, s, vs) = Ok o) /\
  ((forall u ys, poly_init_rd ro (s_n S) (length (s_segs_x S) - 1) (columns_rd rw ro (dot true) (s_n S) (s_rule S) (s_segs_x S) (sqrtw_rd rw (s_gx S)) us) (s_segs_x S) None = Ok u ->
     vcall_rd old ro u 1 = Ok ys -> Forall (fun y => y <> 0) ys) -> exists r, sampling_post_rd old rw ro dot S (us, s, vs) = Ok (Some r)).
Proof.
  intros Hn [Hx Sx] [Hy Sy] H1. unfold sampling_post_rd.
  match goal with |- context [poly_init_rd ro (s_n S) (length (s_segs_x S) - 1) ?d _ _] => destruct (poly_init_rd_some ro (s_n S) (length (s_segs_x S) - 1) d (s_segs_x S) None) as (u & Eu) end.
  { lia. } { intros i Hi. left. apply PPolyFacts.sorted_nth_lt; auto. lia. } { exact I. }
  match goal with |- context [poly_init_rd ro (s_n S) (length (s_segs_y S) - 1) ?d _ _] => destruct (poly_init_rd_some ro (s_n S) (length (s_segs_y S) - 1) d (s_segs_y S) None) as (v & Ev) end.
  { lia. } { intros i Hi. left. apply PPolyFacts.sorted_nth_lt; auto. lia. } { exact I. }
  rewrite Eu. cbn [bind]. rewrite Ev. cbn [bind].
  destruct (vcall_rd_defined old ro _ _ _ _ _ _ 1 Eu Hn ltac:(lia) H1 ltac:(lia)) as (ys & Ey). unfold canonicalize_rd. rewrite Ey. cbn [bind]. split.
  - destruct (all_some _); eexists; reflexivity.
  - intros F. specialize (F u ys eq_refl Ey).
    assert (A : exists l, all_some (map2 (fun p g => if Reqb g 0 then None else Some (scale_col (1 / g) p)) (vcols u) (map np_sign ys)) = Some l).
    { clear - F. revert ys F. induction (vcols u) as [|c cs IH]; intros ys F; [exists []; destruct ys; reflexivity|]. destruct ys as [|y ys]; [exists []; reflexivity|].
      inversion F as [|? ? F1 F2]; subst. destruct (IH ys F2) as (l & El). cbn [map map2 all_some].
      destruct (np_sign_cases y) as [[_ E]|[[_ E]|[E _]]]; [rewrite E; rewrite (proj2 (Reqb_false 1 0)) by lra|rewrite E; rewrite (proj2 (Reqb_false (-1) 0)) by lra|contradiction].
      all: rewrite El; eauto. }
    destruct A as (l & ->). eauto.
Qed.

Lemma merge_rd_defined rd argsort eps n hx hy even odd : half_edges hx -> half_edges hy -> sve_on n hx hy (ideal_sve even) -> sve_on n hx hy (ideal_sve odd) ->
  (forall s, sorts s (argsort s)) -> exists r, merge_rd rd argsort eps (mirrored hx) (mirrored hy) even odd = Ok r.
Proof.
  intros Hx Hy He Ho Hs. destruct (merge_ok argsort eps n hx hy _ _ Hx Hy He Ho (Hs _)) as (r & _ & _ & Hm & _).
  unfold merge in Hm. unfold merge_rd. cbn [ideal_sve su sv ss ideal vgeom vcols ideal_geom gnseg glen] in Hm. cbv zeta in *.
  assert (P : forall order nseg (g g' : R -> col -> nat -> nat -> R) l c knots sy p, poly_init order nseg (map2 g l c) knots None (Some sy) = Ok p -> exists p', poly_init_rd rd order nseg (map2 g' l c) knots (Some sy) = Ok p').
  { intros order nseg g g' l c knots sy p. unfold poly_init_rd, poly_init.
    assert (Hl : length (map2 g' l c) = length (map2 g l c)). { clear. revert c. induction l; intros [|x c]; cbn [map2 length]; auto. }
    rewrite Hl. destruct (negb (Nat.eqb (length knots) _)); [discriminate|]. destruct (negb (forallb _ _)); [discriminate|].
    destruct (Nat.eqb _ _); [|discriminate]. cbn [bind]. eauto. }
  destruct (poly_init (glen (vgeom (su even))) _ _ _ _ _) as [u|] eqn:E1; [|discriminate]. cbn [bind] in Hm.
  destruct (poly_init (glen (vgeom (sv even))) _ _ _ _ _) as [v|] eqn:E2; [|discriminate].
  destruct (P _ _ _ (mirror_col_rd rd (gnseg (vgeom (su even)))) _ _ _ _ _ E1) as (u' & ->). cbn [bind].
  destruct (P _ _ _ (mirror_col_rd rd (gnseg (vgeom (sv even)))) _ _ _ _ _ E2) as (v' & ->). cbn [bind]. eauto.
Qed.

Section Compute.
Variables (have_xprec have_gejsv : bool) (dd : R) (old : bool).
Variable rd : dtype -> R -> R.
Variable ro : R -> R.
Variable f : dtype -> tfun.
Variable dot : bool -> bool -> nat -> nat -> nat -> list R -> list R -> R.
Variable legendre : dtype -> nat -> res rule.
Variable run : svd_alg -> matrix -> Z -> usv.
Variable argsort : list R -> list nat.
Notation compute_rd := (compute_rd have_xprec have_gejsv dd old rd ro f dot legendre run argsort).
Hypothesis Hsort : forall s, sorts s (argsort s).
Variables (K : kernel) (ng : option nat).

(** The rules, matrices and decompositions used exist. *)
Hypothesis Hleg : forall t n, order_in_use ng n -> exists q', legendre t n = Ok q' /\ (0 < n)%nat /\
  (exists M, sampling_matrix_rd (rd t) (kernel_matrix_rd (rd t) (f t) K) q' (segments_x K) (segments_y K) = Ok M /\ forall alg h, usv_shaped (run alg M h)) /\
  (forall s Ks, s = 1 \/ s = -1 -> get_symmetrized K s = Ok Ks -> exists M, sampling_matrix_rd (rd t) (reduced_matrix_rd (rd t) (f t) Ks) q' (half (segments_x K)) (half (segments_y K)) = Ok M /\ forall alg h, usv_shaped (run alg M h)).

Lemma order_here safe : order_in_use ng (match ng with None => hint_ngauss safe | Some n => n end).
Proof. unfold order_in_use. destruct ng as [n|]; [auto|]. right. split; auto. unfold hint_ngauss. destruct (Rleb _ _); auto. Qed.

Lemma reduced_rd_defined sg t safe : sg = 1 \/ sg = -1 ->
  exists Ks S A, get_symmetrized K sg = Ok Ks /\ sampling_init_rd (rd t) (legendre t) (reduced_kern_rd (rd t) (f t) Ks safe) safe ng = Ok S /\
    sampled_matrix_rd (rd t) S = Ok A /\ (0 < s_n S)%nat /\ s_segs_x S = half (segments_x K) /\ s_segs_y S = half (segments_y K) /\ forall alg h, usv_shaped (run alg A h).
Proof.
  intros Hsg. destruct (symmetrized_ok K sg Hsg) as (Ks & HK). exists Ks.
  destruct (reduced_segments K sg Ks HK) as (hx & hy & R1 & R2 & R3 & R4 & R5 & R6). fold (half (segments_x K)) in R3. fold (half (segments_y K)) in R4. subst hx hy.
  unfold sampling_init_rd. cbn [reduced_kern_rd sk_segs_x sk_segs_y sk_matrix sk_ngauss sk_nsvals].
  destruct (Hleg t _ (order_here safe)) as (q & Eq & Hn & _ & HM). destruct (HM sg Ks Hsg HK) as (M & EM & Sh). rewrite Eq, R1, R2. cbn [bind].
  unfold sampling_matrix_rd in EM. destruct (piecewise_rd (rd t) q (half (segments_x K))) as [gx|]; [|discriminate]. cbn [bind] in *.
  destruct (piecewise_rd (rd t) q (half (segments_y K))) as [gy|]; [|discriminate]. cbn [bind] in *.
  eexists. exists M. split; [exact HK|]. split; [reflexivity|]. unfold sampled_matrix_rd. cbn [s_mat s_gx s_gy s_n s_segs_x s_segs_y]. auto 10.
Qed.

Lemma full_rd_defined t safe :
  exists S A, sampling_init_rd (rd t) (legendre t) (full_kern_rd (rd t) (f t) K safe) safe ng = Ok S /\
    sampled_matrix_rd (rd t) S = Ok A /\ (0 < s_n S)%nat /\ s_segs_x S = segments_x K /\ s_segs_y S = segments_y K /\ forall alg h, usv_shaped (run alg A h).
Proof.
  unfold sampling_init_rd. cbn [full_kern_rd sk_segs_x sk_segs_y sk_matrix sk_ngauss sk_nsvals].
  destruct (Hleg t _ (order_here safe)) as (q & Eq & Hn & (M & EM & Sh) & _). rewrite Eq. cbn [bind].
  unfold sampling_matrix_rd in EM. destruct (piecewise_rd (rd t) q (segments_x K)) as [gx|]; [|discriminate]. cbn [bind] in *.
  destruct (piecewise_rd (rd t) q (segments_y K)) as [gy|]; [|discriminate]. cbn [bind] in *.
  eexists. exists M. split; [reflexivity|]. unfold sampled_matrix_rd. cbn [s_mat s_gx s_gy s_n s_segs_x s_segs_y]. auto 10.
Qed.

Lemma compute_rd_returns eps cutoff n_sv work st svds :
  known_strategy svds -> (n_sv = None \/ exists z, n_sv = Some (PyInt z) /\ (0 <= z)%Z) ->
  (forall c, cutoff = Some c -> exists x, valid_rtol c x) ->
  (cutoff = None -> 0 <= dd <= / 2 /\ forall e, work = Some (OtherType e) -> 0 <= e <= / 2) ->
  exists o, compute_rd K eps cutoff n_sv ng work st svds = Ok o.
Proof.
  intros Hk Hn Hc Hc0. destruct (safe_eps have_xprec dd eps work svds) as [[[safe t] strategy] w] eqn:Hs.
  destruct (dispatch_known have_xprec have_gejsv dd _ _ _ _ _ _ _ Hs Hk) as [[a w'] Ea].
  destruct (cutoff_valid have_xprec dd cutoff t work eps svds _ _ _ Hs Hc Hc0) as [x Hx].
  unfold SVEIEEE.compute_rd. rewrite Hs. unfold svd_compute. rewrite Ea. cbn [bind].
  set (rtol := match cutoff with None => _ | Some c => c end) in *.
  destruct (segments_valid K) as [Vx Vy].
  destruct (full_edges _ Vx) as (Ex & X0 & X1 & X2 & X3). destruct (full_edges _ Vy) as (Ey & Y0 & Y1 & _).
  pose proof (half_edges_of _ Vx) as Hhx. pose proof (half_edges_of _ Vy) as Hhy. destruct (half_ends _ Hhx) as (_ & _ & A1 & A2).
  assert (C : forall m : svd_alg -> matrix -> Z -> Z, exists o, (do Ke <- get_symmetrized K 1;
      do even <- sampling_init_rd (rd t) (legendre t) (reduced_kern_rd (rd t) (f t) Ke safe) safe ng;
      do Ko <- get_symmetrized K (-1);
      do odd <- sampling_init_rd (rd t) (legendre t) (reduced_kern_rd (rd t) (f t) Ko safe) safe ng;
      do Ae <- sampled_matrix_rd (rd t) even;
      do be <- Ok (run a Ae (m a Ae (Z.max (s_hint even) (s_hint odd))));
      do Ao <- sampled_matrix_rd (rd t) odd;
      do bo <- Ok (run a Ao (m a Ao (Z.max (s_hint even) (s_hint odd))));
      do cut <- truncate_rd (rd t) [be; bo] rtol n_sv;
      match cut with
      | [be; bo] =>
          do re <- sampling_post_rd old (rd t) ro (dot true) even be;
          do ro' <- sampling_post_rd old (rd t) ro (dot false) odd bo;
          match re, ro' with
          | Some re, Some ro' => do r <- merge_rd ro argsort safe (segments_x K) (segments_y K) re ro'; Ok (Some r)
          | _, _ => Ok None
          end
      | _ => Raise ValueError
      end) = Ok o).
  { intros m. destruct (reduced_rd_defined 1 t safe (or_introl eq_refl)) as (Ke & even & Ae & E1 & E2 & E3 & Ne & Xe & Ye & Se).
    destruct (reduced_rd_defined (-1) t safe (or_intror eq_refl)) as (Ko & odd & Ao & O1 & O2 & O3 & No & Xo & Yo & So).
    rewrite E1. cbn [bind]. rewrite E2. cbn [bind]. rewrite O1. cbn [bind]. rewrite O2. cbn [bind]. rewrite E3. cbn [bind]. rewrite O3. cbn [bind].
    specialize (Se a (m a Ae (Z.max (s_hint even) (s_hint odd)))). specialize (So a (m a Ao (Z.max (s_hint even) (s_hint odd)))).
    match type of Se with usv_shaped ?b => set (be := b) in * end. match type of So with usv_shaped ?b => set (bo := b) in * end.
    destruct (truncate_rd_defined (rd t) [be; bo] rtol x n_sv Hx Hn) as (out & Ho).
    { unfold all_values. cbn [flat_map]. intros H. apply app_eq_nil in H as [H _]. apply (shaped_values _ Se H). }
    rewrite Ho. cbn [bind]. apply truncate_rd_ok in Ho as (c & ->). cbn [map]. destruct be as [[ue se] ve]. destruct bo as [[uo so] vo]. unfold cut_block. cbn [fst snd bvals].
    set (ke := count_above c se). set (ko := count_above c so).
    destruct (proj1 (post_rd_defined old (rd t) ro (dot true) even (firstn ke ue) (firstn ke se) (firstn ke ve) Ne ltac:(rewrite Xe; apply Hhx) ltac:(rewrite Ye; apply Hhy) ltac:(rewrite Xe, A1, A2; lra))) as (re & Hre).
    destruct (proj1 (post_rd_defined old (rd t) ro (dot false) odd (firstn ko uo) (firstn ko so) (firstn ko vo) No ltac:(rewrite Xo; apply Hhx) ltac:(rewrite Yo; apply Hhy) ltac:(rewrite Xo, A1, A2; lra))) as (ro' & Hro).
    rewrite Hre, Hro. cbn [bind]. destruct re as [re|]; [|eexists; reflexivity]. destruct ro' as [ro'|]; [|eexists; reflexivity].
    destruct Se as (L1 & L2 & _). destruct So as (L3 & L4 & _).
    assert (D1 : length (firstn ke ue) = length (firstn ke se)) by (clear - L1; rewrite !firstn_length; cbn [fst snd] in *; lia).
    assert (D2 : length (firstn ke ve) = length (firstn ke se)) by (clear - L2; rewrite !firstn_length; cbn [fst snd] in *; lia).
    assert (D3 : length (firstn ko uo) = length (firstn ko so)) by (clear - L3; rewrite !firstn_length; cbn [fst snd] in *; lia).
    assert (D4 : length (firstn ko vo) = length (firstn ko so)) by (clear - L4; rewrite !firstn_length; cbn [fst snd] in *; lia).
    assert (B1 : edges_ok (s_segs_x even)) by (rewrite Xe; apply Hhx). assert (B2 : edges_ok (s_segs_y even)) by (rewrite Ye; apply Hhy).
    assert (B3 : edges_ok (s_segs_x odd)) by (rewrite Xo; apply Hhx). assert (B4 : edges_ok (s_segs_y odd)) by (rewrite Yo; apply Hhy).
    pose proof (post_rd_struct _ _ _ _ _ _ _ _ _ Ne B1 B2 D1 D2 Hre) as (On1 & _).
    pose proof (post_rd_struct _ _ _ _ _ _ _ _ _ No B3 B4 D3 D4 Hro) as (On2 & _).
    rewrite Xe, Ye in On1. rewrite Xo, Yo in On2.
    assert (Nn : s_n odd = s_n even).
    { apply sampling_init_rd_inv in E2 as (_ & _ & _ & _ & _ & _ & _ & _ & I1). apply sampling_init_rd_inv in O2 as (_ & _ & _ & _ & _ & _ & _ & _ & I2). cbn [reduced_kern_rd sk_ngauss] in I1, I2. congruence. }
    rewrite Nn in On2. destruct (merge_rd_defined ro argsort safe (s_n even) _ _ re ro' Hhx Hhy On1 On2 Hsort) as (r & Hm).
    destruct (reduced_segments K 1 Ke E1) as (hx & hy & _ & _ & R3 & R4 & R5 & R6). fold (half (segments_x K)) in R3. fold (half (segments_y K)) in R4. subst hx hy.
    rewrite R5, R6 in Hm. rewrite Hm. cbn [bind]. eexists; reflexivity. }
  destruct st as [[]|]; [|exact (C (fun _ A h => Z.min (Z.min (Z.of_nat (length A)) (Z.of_nat match A with [] => 0%nat | row :: _ => length row end)) h))|exact (C (fun _ A h => Z.min (Z.min (Z.of_nat (length A)) (Z.of_nat match A with [] => 0%nat | row :: _ => length row end)) h))].
  clear C. destruct (full_rd_defined t safe) as (S & A & F1 & F2 & N & X & Y & Sh). rewrite F1. cbn [bind]. rewrite F2. cbn [bind].
  match goal with |- context [run a A ?h] => specialize (Sh a h); set (b := run a A h) in * end.
  destruct (truncate_rd_defined (rd t) [b] rtol x n_sv Hx Hn) as (out & Ho).
  { unfold all_values. cbn [flat_map]. intros H. apply app_eq_nil in H as [H _]. apply (shaped_values _ Sh H). }
  rewrite Ho. cbn [bind]. apply truncate_rd_ok in Ho as (c & ->). cbn [map]. destruct b as [[u s] v]. unfold cut_block. cbn [fst snd bvals].
  apply (post_rd_defined old (rd t) ro (dot true) S); auto; [rewrite X; apply Ex|rewrite Y; apply Ey|rewrite X, X2, X3; lra].
Qed.
End Compute.

Section NoneInv.
Variables (have_xprec have_gejsv : bool) (dd : R) (old : bool).
Variable rd : dtype -> R -> R.
Variable ro : R -> R.
Variable f : dtype -> tfun.
Variable dot : bool -> bool -> nat -> nat -> nat -> list R -> list R -> R.
Variable legendre : dtype -> nat -> res rule.
Variable run : svd_alg -> matrix -> Z -> usv.
Variable argsort : list R -> list nat.
Notation compute_rd := (compute_rd have_xprec have_gejsv dd old rd ro f dot legendre run argsort).

Lemma compute_rd_none K eps cutoff n_sv ng work st svds : compute_rd K eps cutoff n_sv ng work st svds = Ok None ->
  exists part t S A alg h c, legendre t (s_n S) = Ok (s_rule S) /\ (forall m, ng = Some m -> s_n S = m) /\
    (st = Some SampleStrat -> s_segs_x S = segments_x K /\ s_segs_y S = segments_y K) /\
    (st <> Some SampleStrat -> s_segs_x S = half (segments_x K) /\ s_segs_y S = half (segments_y K)) /\
    piecewise_rd (rd t) (s_rule S) (s_segs_x S) = Ok (s_gx S) /\
    sampling_post_rd old (rd t) ro (dot part) S (cut_block c (run alg A h)) = Ok None.
Proof.
  unfold SVEIEEE.compute_rd. intros H. destruct (safe_eps _ _ _ _ _) as [[[safe t] strategy] w].
  set (rtol := match cutoff with None => _ | Some c => c end) in H.
  assert (D : st = Some SampleStrat \/ st <> Some SampleStrat) by (destruct st as [[]|]; [left; auto|right; discriminate|right; discriminate]).
  destruct D as [->|Hst].
  { destruct (sampling_init_rd _ _ _ _ _) as [S|] eqn:E1; [|discriminate]. cbn [bind] in H.
    destruct (sampled_matrix_rd _ S) as [A|] eqn:E2; [|discriminate]. cbn [bind] in H.
    destruct (svd_compute _ _ _ _ _ _ _) as [b|] eqn:E3; [|discriminate]. cbn [bind] in H.
    apply svd_rd_inv in E3 as (alg & h & ->).
    destruct (truncate_rd _ _ _ _) as [cut|] eqn:E4; [|discriminate]. cbn [bind] in H.
    apply truncate_rd_ok in E4 as (c & ->). cbn [map] in H. apply sampling_init_rd_inv in E1 as (I1 & I2 & I3 & I4 & _ & _ & _ & _ & I9).
    exists true, t, S, A, alg, h, c. cbn [full_kern_rd sk_segs_x sk_segs_y] in I2, I3. injection I2 as I2. injection I3 as I3.
    split; [exact I1|]. split; [intros m E; rewrite I9, E; auto|]. split; [auto|]. split; [congruence|]. auto. }
  assert (H' : (do Ke <- get_symmetrized K 1;
      do even <- sampling_init_rd (rd t) (legendre t) (reduced_kern_rd (rd t) (f t) Ke safe) safe ng;
      do Ko <- get_symmetrized K (-1);
      do odd <- sampling_init_rd (rd t) (legendre t) (reduced_kern_rd (rd t) (f t) Ko safe) safe ng;
      do Ae <- sampled_matrix_rd (rd t) even;
      do be <- svd_compute have_xprec have_gejsv run t Ae (Z.max (s_hint even) (s_hint odd)) strategy;
      do Ao <- sampled_matrix_rd (rd t) odd;
      do bo <- svd_compute have_xprec have_gejsv run t Ao (Z.max (s_hint even) (s_hint odd)) strategy;
      do cut <- truncate_rd (rd t) [be; bo] rtol n_sv;
      match cut with
      | [be; bo] =>
          do re <- sampling_post_rd old (rd t) ro (dot true) even be;
          do ro' <- sampling_post_rd old (rd t) ro (dot false) odd bo;
          match re, ro' with
          | Some re, Some ro' => do r <- merge_rd ro argsort safe (segments_x K) (segments_y K) re ro'; Ok (Some r)
          | _, _ => Ok None
          end
      | _ => Raise ValueError
      end) = Ok None) by (destruct st as [[]|]; try congruence; exact H).
  clear H. rename H' into H.
  destruct (get_symmetrized K 1) as [Ke|] eqn:E1; [|discriminate]. cbn [bind] in H.
  destruct (sampling_init_rd _ _ (reduced_kern_rd _ _ Ke _) _ _) as [even|] eqn:E2; [|discriminate]. cbn [bind] in H.
  destruct (get_symmetrized K (-1)) as [Ko|] eqn:E3; [|discriminate]. cbn [bind] in H.
  destruct (sampling_init_rd _ _ (reduced_kern_rd _ _ Ko _) _ _) as [odd|] eqn:E4; [|discriminate]. cbn [bind] in H.
  destruct (sampled_matrix_rd _ even) as [Ae|] eqn:E5; [|discriminate]. cbn [bind] in H.
  destruct (svd_compute _ _ _ _ Ae _ _) as [be|] eqn:E6; [|discriminate]. cbn [bind] in H.
  destruct (sampled_matrix_rd _ odd) as [Ao|] eqn:E7; [|discriminate]. cbn [bind] in H.
  destruct (svd_compute _ _ _ _ Ao _ _) as [bo|] eqn:E8; [|discriminate]. cbn [bind] in H.
  apply svd_rd_inv in E6 as (alge & he & ->). apply svd_rd_inv in E8 as (algo & ho & ->).
  destruct (truncate_rd _ _ _ _) as [cut|] eqn:E9; [|discriminate]. cbn [bind] in H. apply truncate_rd_ok in E9 as (c & ->). cbn [map] in H.
  assert (P : forall sg Ks S, get_symmetrized K sg = Ok Ks -> sampling_init_rd (rd t) (legendre t) (reduced_kern_rd (rd t) (f t) Ks safe) safe ng = Ok S ->
    legendre t (s_n S) = Ok (s_rule S) /\ (forall m, ng = Some m -> s_n S = m) /\ (s_segs_x S = half (segments_x K) /\ s_segs_y S = half (segments_y K)) /\ piecewise_rd (rd t) (s_rule S) (s_segs_x S) = Ok (s_gx S)).
  { intros sg Ks S HK HS. apply sampling_init_rd_inv in HS as (I1 & I2 & I3 & I4 & _ & _ & _ & _ & I9). cbn [reduced_kern_rd sk_segs_x sk_segs_y] in I2, I3.
    destruct (reduced_segments K sg Ks HK) as (hx & hy & R1 & R2 & R3 & R4 & _). split; [exact I1|]. split; [intros m E; rewrite I9, E; auto|]. split; [unfold half; split; congruence|exact I4]. }
  destruct (sampling_post_rd _ _ _ _ even _) as [re|] eqn:E10; [|discriminate]. cbn [bind] in H.
  destruct (sampling_post_rd _ _ _ _ odd _) as [ro'|] eqn:E11; [|discriminate]. cbn [bind] in H.
  destruct re as [re|].
  - destruct ro' as [ro'|]; [destruct (merge_rd _ _ _ _ _ _ _); discriminate|].
    destruct (P _ _ _ E3 E4) as (P1 & P2 & P3 & P4). exists false, t, odd, Ao, algo, ho, c. split; [exact P1|]. split; [exact P2|]. split; [congruence|]. auto.
  - destruct (P _ _ _ E1 E2) as (P1 & P2 & P3 & P4). exists true, t, even, Ae, alge, he, c. split; [exact P1|]. split; [exact P2|]. split; [congruence|]. auto.
Qed.
End NoneInv.
