(** The results about the overlap integral in double precision. *)
From Coq Require Import Reals Lra Lia Arith ZArith Bool FunctionalExtensionality.
From Coq Require Import List Sorting.Sorted Sorting.Permutation.
From Verif.Model Require Import Base Util Num IEEE Gauss Kronrod Poly PolyIEEE GaussIEEE Overlap OverlapIEEE.
From Verif.Spec Require Import SGauss SPoly SBasis SKernelIEEE SOverlap SOverlapIEEE.
From Verif.Proofs Require Import BaseFacts GaussFacts PPolyFacts AugmentProps BasisPhys IEEEFacts KernelRoundCall OverlapTiles OverlapFacts OverlapMore OverlapProps OverlapCase PolyRound OverlapRound OverlapRoundLoop.
Import ListNotations.
Open Scope R_scope.
Notation length := List.length.

Lemma over_nonneg D (g : R -> R -> R) : (forall s t, In (s, t) D -> 0 <= g s t) -> 0 <= over D g.
Proof.
  unfold over. induction D as [|[s t] D IH]; intros H; [cbn; lra|]. cbn [map fst snd]. rewrite rsum_cons.
  specialize (IH (fun a b Hx => H a b (or_intror Hx))). specialize (H s t (or_introl eq_refl)). lra.
Qed.

Lemma start_double p points e : Forall is_double (gknots (vgeom p)) -> double_points points -> breaks (gknots (vgeom p)) points e ->
  start_knots p points = e /\ Forall is_double e.
Proof.
  intros F Fp Hb. assert (E : start_knots p points = e) by (symmetry; apply breaks_unique, Hb).
  split; [exact E|]. rewrite <- E. destruct points as [pts|]; cbn in *; auto. rewrite Forall_forall in *. intros x Hx. rewrite runique_in, in_app_iff in Hx. destruct Hx; auto.
Qed.

Lemma partition_rd old N sg sm p f rtol ml mp points e val err nc warned :
  sums_near N sg sm -> (31 <= N)%nat -> (mp <= N)%nat ->
  StronglySorted Rle (gknots (vgeom p)) -> Forall is_double (gknots (vgeom p)) -> double_points points -> breaks (gknots (vgeom p)) points e ->
  compute_overlap_rd rnd64 old sm p f rtol ml mp points = Ok (val, err, nc, warned) ->
  exists done pending, tiles (done ++ pending) e /\ Forall double_ends (done ++ pending) /\ (warned = true <-> pending <> []) /\
    forall l c u h, (l < length (vcols p))%nat -> computed_by old p l u -> component f c h ->
      Rabs (val l c - over done (sum15 u h)) <= (growth sg ml - 1) * over done (abs15 u h) /\
      Rabs (err l c - over done (fun s t => Rabs (sum31 u h s t - sum15 u h s t))) <=
        (growth sg ml - 1) * over done (fun s t => abs31 u h s t + abs15 u h s t).
Proof.
  intros Hsm HN Hmp Hs Hd Hpt Hb H. destruct (start_double p points e Hd Hpt Hb) as [<- Hd'].
  destruct (overlap_rd_partition _ _ _ _ _ _ _ _ _ _ _ _ _ _ Hsm HN Hmp Hs Hd' H) as (n & t & D & iv & Hn & I & <- & <- & W).
  exists D, iv. split; [apply (inv_tiles _ _ _ _ _ _ _ _ _ _ _ I)|]. split; [apply (inv_ends _ _ _ _ _ _ _ _ _ _ _ I)|]. split; [exact W|].
  intros l c u h Hl Hu Hc. destruct (inv_value _ _ _ _ _ _ _ _ _ _ _ I l c u h Hl Hu Hc) as [A B]. pose proof (growth_mono sg n ml (proj1 (proj1 Hsm)) Hn).
  split; eapply Rle_trans; [exact A| |exact B|]; apply Rmult_le_compat_r; try lra; apply over_nonneg; intros; [apply abs15_pos|].
  pose proof (abs15_pos u h s t0). pose proof (abs31_pos u h s t0). lra.
Qed.

Lemma tolerance_rd old N sg sm p f r ml mp points e val err nc :
  sums_near N sg sm -> (31 <= N)%nat -> (mp <= N)%nat ->
  StronglySorted Rle (gknots (vgeom p)) -> Forall is_double (gknots (vgeom p)) -> double_points points -> breaks (gknots (vgeom p)) points e ->
  compute_overlap_rd rnd64 old sm p f (Fin r) ml mp points = Ok (val, err, nc, false) ->
  exists done, tiles done e /\
    (forall l c u h, (l < length (vcols p))%nat -> computed_by old p l u -> component f c h ->
       Rabs (val l c - over done (sum15 u h)) <= (growth sg ml - 1) * over done (abs15 u h)) /\
    forall s t, In (s, t) done -> exists T, tiles T e /\ In (s, t) T /\
      forall l u B c h, (l < length (vcols p))%nat -> computed_by old p l u ->
        (forall s' t' c' h', In (s', t') T -> (c' < nc)%nat -> component f c' h' -> abs15 u h' s' t' <= B s' t') ->
        (c < nc)%nat -> component f c h ->
        Rabs (sum31 u h s t - sum15 u h s t) <=
          (r + eta64) * growth sg ml / (1 - / 2 ^ 53) ^ 2 * over T B + sg * (abs31 u h s t + abs15 u h s t).
Proof.
  intros Hsm HN Hmp Hs Hd Hpt Hb H. destruct (start_double p points e Hd Hpt Hb) as [<- Hd'].
  destruct (overlap_rd_partition _ _ _ _ _ _ _ _ _ _ _ _ _ _ Hsm HN Hmp Hs Hd' H) as (n & t & D & iv & Hn & I & <- & <- & W).
  assert (iv = []) as -> by (destruct iv; auto; assert (false = true) by (apply W; discriminate); discriminate).
  pose proof (inv_tiles _ _ _ _ _ _ _ _ _ _ _ I) as HT. rewrite app_nil_r in HT. pose proof (growth_mono sg n ml (proj1 (proj1 Hsm)) Hn) as Hg.
  exists D. split; [exact HT|]. split.
  - intros l c u h Hl Hu Hc. destruct (inv_value _ _ _ _ _ _ _ _ _ _ _ I l c u h Hl Hu Hc) as [A _].
    eapply Rle_trans; [exact A|]; apply Rmult_le_compat_r; [|lra]; apply over_nonneg; intros; apply abs15_pos.
  - intros s t0 Hst. assert (Hnc := inv_nc _ _ _ _ _ _ _ _ _ _ _ I nc eq_refl).
    pose proof (tolerant_mono old N sg sm p f (Fin r) _ Hsm n ml nc (s, t0) Hn Hnc (inv_tol _ _ _ _ _ _ _ _ _ _ _ I nc (s, t0) eq_refl Hst) r eq_refl) as (T & T1 & T2 & T3).
    exists T. split; auto. split; auto. intros l u B c h Hl Hu HB Hc Hh. destruct (T3 l u B c h Hl Hu HB Hc Hh) as [_ K]. cbn [fst snd] in K. fold v64.
    pose proof v64_bounds as Hv. assert (Hq : 0 < (1 - v64) ^ 2) by (apply pow_lt; lra).
    set (q := (1 - v64) ^ 2) in *. set (x := Rabs _) in *. set (w := sg * _) in *. 
    assert (x - w <= (r + eta64) * (growth sg ml * over T B) / q).
    { apply Rmult_le_reg_l with q; [lra|]. unfold Rdiv. replace (q * ((r + eta64) * (growth sg ml * over T B) * / q)) with ((r + eta64) * (growth sg ml * over T B)) by (field; lra). exact K. }
    unfold Rdiv in *. lra.
Qed.


(** Without rounding. *)
Lemma kronrod_id : kronrod_rd (fun x => x) = kronrod_31_15.
Proof. unfold kronrod_rd, kronrod_31_15. rewrite !map_id. reflexivity. Qed.
Lemma seat_id st : seat_rd (fun x => x) st = seat st.
Proof. unfold seat_rd. cbv zeta. rewrite kronrod_id. unfold seat, nreseat. f_equal. Qed.
Lemma nodes_id st : nodes_rd (fun x => x) st = nodes st.
Proof. unfold nodes_rd. rewrite seat_id. reflexivity. Qed.
Lemma sample_id f prev iv : sample_rd (fun x => x) f prev iv = sample f prev iv.
Proof. unfold sample_rd, sample. erewrite map_ext; [reflexivity|]. intros st. cbv beta. rewrite nodes_id. reflexivity. Qed.
Lemma poly_values_id old p iv : poly_values_rd old (fun x => x) p iv = poly_values p iv.
Proof.
  unfold poly_values_rd, poly_values. rewrite (map_ext (nodes_rd (fun x => x)) nodes nodes_id). destruct (negb _); auto. f_equal. apply map_ext. intros st.
  rewrite nodes_id. apply (exact_arithmetic old).
Qed.
Lemma panel_id st fx px : make_panel_rd (fun x => x) rsum st fx px = make_panel st fx px.
Proof. unfold make_panel_rd, make_panel. rewrite seat_id. reflexivity. Qed.
Lemma cells_id st : cells_rd (fun x => x) st = cells 2 st.
Proof.
  destruct st as [s t]. unfold cells_rd, cells, mid_rd. cbn [fst snd seq map init removelast tl combine].
  assert (E0 : s + INR 0 * ((t - s) / INR 2) = s) by (simpl; lra). assert (E1 : s + INR 1 * ((t - s) / INR 2) = (t - s) / 2 + s) by (simpl; lra).
  assert (E2 : s + INR 2 * ((t - s) / INR 2) = t) by (simpl; lra). rewrite E0, E1, E2. reflexivity.
Qed.
Lemma levels_id old n mp p f rtol : forall shape t iv,
  levels_rd (fun x => x) old rsum n mp p f rtol shape t iv = levels n 2 mp p f rtol shape t iv.
Proof.
  induction n as [|n IH]; intros shape t iv; [reflexivity|]. cbn [levels_rd levels]. rewrite sample_id, poly_values_id.
  destruct (Nat.ltb mp (length iv)); [reflexivity|]. destruct (sample f shape iv) as [[nc fx]|]; [|reflexivity]. cbn [bind fst snd].
  destruct (poly_values p iv) as [px|]; [|reflexivity]. cbn [bind].
  assert (Ep : (fun (st : R * R) (d : list (list R) * list (list R)) => make_panel_rd (fun x => x) rsum st (fst d) (snd d)) = (fun st d => make_panel st (fst d) (snd d))).
  { extensionality st. extensionality d. apply panel_id. }
  rewrite Ep. set (ps := map2 _ _ _). destruct (cmax nc (fun _ => 0)); [|reflexivity]. cbn [bind].
  change (converged_rd (fun x => x) rsum (length (vcols p)) nc rtol t ps) with (converged (length (vcols p)) nc rtol t ps).
  change (accumulate_rd (fun x => x) rsum nc t (filter (converged (length (vcols p)) nc rtol t ps) ps)) with (accumulate nc t (filter (converged (length (vcols p)) nc rtol t ps) ps)).
  destruct (forallb _ ps); [reflexivity|]. rewrite IH. f_equal.
  induction (map pspan (filter (fun q => negb (converged (length (vcols p)) nc rtol t ps q)) ps)) as [|st l IHl]; [reflexivity|].
  cbn [flat_map]. rewrite IHl, cells_id. reflexivity.
Qed.
Lemma overlap_id old p f rtol ml mp points :
  compute_overlap_rd (fun x => x) old rsum p f rtol ml mp points = compute_overlap p f rtol 2 ml mp points.
Proof. unfold compute_overlap_rd, compute_overlap. rewrite levels_id. reflexivity. Qed.
Lemma halving s t : is_double s -> is_double t -> s <= t ->
  exists m, is_double m /\ s <= m <= t /\ cells_rd rnd64 (s, t) = [(s, m); (m, t)].
Proof. intros Hs Ht H. exists (mid_rd rnd64 s t). split; [apply rnd64_double|]. split; [apply mid_inside; auto|reflexivity]. Qed.
