(** The refinement loop of the overlap integral in double precision. *)
From Coq Require Import Reals Lra Lia Arith ZArith Bool.
From Coq Require Import List Sorting.Sorted Sorting.Permutation.
From Verif.Model Require Import Base Util Num IEEE Gauss Kronrod Poly PolyIEEE GaussIEEE Overlap OverlapIEEE.
From Verif.Spec Require Import SGauss SBasis SKernelIEEE SOverlap SOverlapIEEE.
From Verif.Proofs Require Import BaseFacts GaussFacts PPolyFacts AugmentProps BasisPhys IEEEFacts KernelRoundCall OverlapTiles OverlapFacts OverlapRound.
Import ListNotations.
Open Scope R_scope.
Notation length := List.length.

Lemma Rabs_le_inv x y : Rabs x <= y -> - y <= x <= y.
Proof. unfold Rabs. destruct (Rcase_abs x); lra. Qed.

Lemma filter_len {A} (P : A -> bool) l : (length (filter P l) <= length l)%nat.
Proof. induction l as [|a l IH]; cbn; [lia|]. destruct (P a); cbn; lia. Qed.

Lemma sample_rd_ok f prev iv nc fx : sample_rd rnd64 f prev iv = Ok (nc, fx) ->
  Forall2 (fun st d => collect (map f (nodes_rd rnd64 st)) = Ok d) iv fx /\ (forall k, prev = Some k -> nc = k).
Proof.
  unfold sample_rd. destruct (collect (map (fun st => collect (map f (nodes_rd rnd64 st))) iv)) as [fx'|] eqn:E; [|discriminate]. cbn [bind].
  destruct (concat fx') as [|v0 rest] eqn:Ec; [discriminate|]. destruct (forallb _ (v0 :: rest)) eqn:Ef; [|discriminate].
  intros H. assert (fx = fx' /\ forall k, prev = Some k -> nc = k) as (-> & Hp).
  { destruct prev as [k|].
    - destruct (Nat.eqb_spec (length v0) k); [|discriminate]. injection H as <- <-. split; auto. congruence.
    - injection H as <- <-. split; auto. discriminate. }
  split; auto. clear - E. apply collect_ok in E. revert fx' E. induction iv; intros fx' E; inversion E; subst; constructor; auto.
Qed.
Lemma poly_values_rd_ok old p iv px : poly_values_rd old rnd64 p iv = Ok px -> Forall2 (fun st d => vcall_arr_rd old rnd64 p (nodes_rd rnd64 st) = Ok d) iv px.
Proof.
  unfold poly_values_rd. destruct (negb _); [discriminate|]. intros E. apply collect_ok in E. revert px E.
  induction iv; intros px E; inversion E; subst; constructor; auto.
Qed.
Lemma level_panels_rd old N sg sm p f iv fx px : sums_near N sg sm -> (31 <= N)%nat ->
  Forall2 (fun st d => collect (map f (nodes_rd rnd64 st)) = Ok d) iv fx -> Forall2 (fun st d => vcall_arr_rd old rnd64 p (nodes_rd rnd64 st) = Ok d) iv px ->
  let ps := map2 (fun st d => make_panel_rd rnd64 sm st (fst d) (snd d)) iv (combine fx px) in
  map pspan ps = iv /\ Forall (panel_near old sg p f) ps.
Proof.
  intros Hs HN F1. revert px. induction F1 as [|st d iv fx Hd F1 IH]; intros px F2; inversion F2; subst; cbn; [split; constructor|].
  destruct (IH _ H3) as [A B]. split; [f_equal; exact A|constructor; [eapply make_panel_near; eauto|exact B]].
Qed.

Lemma abs15_sum u h s t : Rabs (sum15 u h s t) <= abs15 u h s t.
Proof. apply rsum_abs_le. Qed.
Lemma abs31_sum u h s t : Rabs (sum31 u h s t) <= abs31 u h s t.
Proof. apply rsum_abs_le. Qed.
Lemma abs15_pos u h s t : 0 <= abs15 u h s t.
Proof. apply rsum_abs_pos. Qed.
Lemma abs31_pos u h s t : 0 <= abs31 u h s t.
Proof. apply rsum_abs_pos. Qed.

Lemma growth_S sg n : growth sg (S n) = (1 + v64) * growth sg n.
Proof. unfold growth, v64. rewrite <- (tech_pow_Rmult _ (S n)). ring. Qed.
Lemma growth_mono sg n m : 0 <= sg -> (n <= m)%nat -> growth sg n <= growth sg m.
Proof.
  intros Hs H. unfold growth. pose proof v64_bounds as Hv. fold v64. apply Rmult_le_compat_r; [nra|]. apply Rle_pow; [lra|lia].
Qed.
Lemma growth_base sg n : 0 <= sg -> (1 + sg) * (1 + v64) * (1 + sg) <= growth sg n.
Proof.
  intros Hs. eapply Rle_trans; [|apply (growth_mono sg 0 n Hs); lia]. unfold growth. fold v64. simpl. nra.
Qed.

Lemma growth_base2 sg n : 0 <= sg -> (1 + sg) * (1 + sg) <= growth sg n.
Proof.
  intros Hs. pose proof (growth_base sg n Hs). pose proof v64_bounds. assert (0 <= v64 * ((1 + sg) * (1 + sg))) by (apply Rmult_le_pos; nra). lra.
Qed.

Lemma computed_exists old p l : exists u, computed_by old p l u.
Proof.
  exists (fun x => match value_rd old rnd64 p (Z.of_nat l) x with Ok v => v | Raise _ => 0 end). intros x v ->. reflexivity.
Qed.

(** The difference of the two rules. *)
Lemma diff_near old sg p f q l c u h : 0 <= sg -> panel_near old sg p f q -> (l < length (vcols p))%nat -> computed_by old p l u -> component f c h ->
  let s := fst (pspan q) in let t := snd (pspan q) in
  is_double (pdiff_rd rnd64 q l c) /\
  Rabs (pdiff_rd rnd64 q l c - Rabs (sum31 u h s t - sum15 u h s t)) <= ((1 + sg) * (1 + v64) - 1) * (abs31 u h s t + abs15 u h s t) /\
  Rabs (Rabs (sum31 u h s t - sum15 u h s t)) <= abs31 u h s t + abs15 u h s t /\
  (1 - v64) * (Rabs (sum31 u h s t - sum15 u h s t) - sg * (abs31 u h s t + abs15 u h s t)) <= pdiff_rd rnd64 q l c.
Proof.
  intros Hsg [HD HP] Hl Hu Hc s t. destruct (HD l c) as [D1 D2]. destruct (HP l c u h Hl Hu Hc) as [E1 E2]. fold s t in E1, E2.
  pose proof v64_bounds as Hv. pose proof (sub64 _ _ D1 D2) as E. pose proof (abs31_sum u h s t) as B1. pose proof (abs15_sum u h s t) as B2.
  pose proof (abs31_pos u h s t) as P1. pose proof (abs15_pos u h s t) as P2. unfold pdiff_rd.
  set (x := pint21 q l c) in *. set (y := pint10 q l c) in *. set (X := sum31 u h s t) in *. set (Y := sum15 u h s t) in *.
  set (a := abs31 u h s t) in *. set (b := abs15 u h s t) in *.
  assert (Exy : Rabs ((x - y) - (X - Y)) <= sg * (a + b)).
  { replace ((x - y) - (X - Y)) with ((x - X) + - (y - Y)) by ring. eapply Rle_trans; [apply Rabs_triang|]. rewrite Rabs_Ropp. lra. }
  assert (EXY : Rabs (X - Y) <= a + b). { unfold Rminus. eapply Rle_trans; [apply Rabs_triang|]. rewrite Rabs_Ropp. lra. }
  pose proof (Rabs_triang_inv2 (x - y) (X - Y)) as T1. pose proof (Rabs_triang_inv2 (rnd64 (x - y)) (x - y)) as T2.
  pose proof (Rabs_triang_inv (x - y) (X - Y)) as T3.
  assert (Hxy : Rabs (x - y) <= (1 + sg) * (a + b)) by lra.
  split; [apply double_abs, rnd64_double|]. split; [|split].
  - replace (Rabs (rnd64 (x - y)) - Rabs (X - Y)) with ((Rabs (rnd64 (x - y)) - Rabs (x - y)) + (Rabs (x - y) - Rabs (X - Y))) by ring.
    eapply Rle_trans; [apply Rabs_triang|]. assert (v64 * Rabs (x - y) <= v64 * ((1 + sg) * (a + b))) by (apply Rmult_le_compat_l; lra). lra.
  - rewrite Rabs_Rabsolu. exact EXY.
  - apply Rabs_le_inv in T1, T2. assert (Rabs (X - Y) - sg * (a + b) <= Rabs (x - y)) by lra.
    assert ((1 - v64) * (Rabs (X - Y) - sg * (a + b)) <= (1 - v64) * Rabs (x - y)) by (apply Rmult_le_compat_l; lra). lra.
Qed.

Lemma xdiv_rd_le a b r : 0 <= a -> 0 <= b -> xleb (xdiv_rd rnd64 a b) (Fin r) = true -> 0 < b /\ 0 <= r /\ (1 - v64) * a <= (r + eta64) * b.
Proof.
  intros Ha Hb. unfold xdiv_rd. destruct (Reqb b 0) eqn:E.
  - destruct (Reqb a 0); discriminate.
  - intros H. cbn in H. apply Rleb_true in H. assert (b <> 0) by (intros ->; rewrite (proj2 (Reqb_true 0 0) eq_refl) in E; discriminate).
    assert (Hb' : 0 < b) by lra. split; [exact Hb'|]. assert (0 <= a / b) by (apply Rmult_le_pos; [lra|left; apply Rinv_0_lt_compat; lra]).
    destruct rounding_double as (R1 & R2 & _). pose proof (R2 _ H1) as H2. specialize (R1 (a / b)). rewrite (Rabs_pos_eq (a / b)) in R1 by lra. fold v64 in R1.
    split; [lra|]. apply Rabs_le_inv in R1. assert (H3 : (1 - v64) * (a / b) <= r + eta64) by lra.
    apply (Rmult_le_compat_r b) in H3; [|lra]. unfold Rdiv in H3. rewrite Rmult_assoc, Rmult_assoc, Rinv_l, Rmult_1_r in H3 by auto. exact H3.
Qed.

(** B bounds, on the intervals T, the sums of absolute values for all components. *)
Definition bounds15 (f : R -> res (list R)) (nc : nat) (u : R -> R) (T : list (R * R)) (B : R -> R -> R) : Prop :=
  forall s t c h, In (s, t) T -> (c < nc)%nat -> component f c h -> abs15 u h s t <= B s t.

Section Loop.
Variables (old : bool) (N : nat) (sg : R) (sm : list R -> R) (mp : nat) (p : vpoly) (f : R -> res (list R)) (rtol : xr) (kn : list R).
Hypothesis Hsm : sums_near N sg sm.
Hypothesis HN : (31 <= N)%nat.
Hypothesis Hmp : (mp <= N)%nat.

Definition tolerant (n nc : nat) (st : R * R) : Prop :=
  forall r, rtol = Fin r -> exists T, tiles T kn /\ In st T /\
    forall l u B c h, (l < length (vcols p))%nat -> computed_by old p l u -> bounds15 f nc u T B -> (c < nc)%nat -> component f c h -> 0 <= r /\
      (1 - v64) ^ 2 * (Rabs (sum31 u h (fst st) (snd st) - sum15 u h (fst st) (snd st)) - sg * (abs31 u h (fst st) (snd st) + abs15 u h (fst st) (snd st)))
        <= (r + eta64) * (growth sg n * over T B).

Record inv (n : nat) (shape : option nat) (t : totals) (D iv : list (R * R)) : Prop := Inv {
  inv_tiles : tiles (D ++ iv) kn;
  inv_ends : Forall double_ends (D ++ iv);
  inv_fresh : shape = None -> D = [];
  inv_nc : forall nc, shape = Some nc -> (0 < nc)%nat;
  inv_double : forall l c, is_double (tvalue t l c) /\ is_double (terror t l c) /\ is_double (tmagn t l);
  inv_value : forall l c u h, (l < length (vcols p))%nat -> computed_by old p l u -> component f c h ->
    Rabs (tvalue t l c - over D (sum15 u h)) <= (growth sg n - 1) * over D (abs15 u h) /\
    Rabs (terror t l c - over D (fun a b => Rabs (sum31 u h a b - sum15 u h a b))) <= (growth sg n - 1) * over D (fun a b => abs31 u h a b + abs15 u h a b);
  inv_magn : forall l u B, (l < length (vcols p))%nat -> computed_by old p l u -> (forall nc, shape = Some nc -> bounds15 f nc u D B) ->
    0 <= tmagn t l <= growth sg n * over D B;
  inv_tol : forall nc st, shape = Some nc -> In st D -> tolerant n nc st }.

Lemma tolerant_mono n m nc st : (n <= m)%nat -> (0 < nc)%nat -> tolerant n nc st -> tolerant m nc st.
Proof.
  intros Hnm Hnc H r Hr. destruct (H r Hr) as (T & A & B & E). exists T. split; auto. split; auto.
  intros l u B' c h Hl Hu HB Hc Hh. destruct (E l u B' c h Hl Hu HB Hc Hh) as [C E']. split; [exact C|]. eapply Rle_trans; [exact E'|].
  assert (0 <= eta64) by (unfold eta64; apply Flocq.Core.Raux.bpow_ge_0).
  apply Rmult_le_compat_l; [lra|]. apply Rmult_le_compat_r; [|apply growth_mono; [apply Hsm|exact Hnm]].
  clear - HB Hnc. unfold bounds15 in HB. unfold over. assert (F : forall st, In st T -> 0 <= B' (fst st) (snd st)).
  { intros [s t] Hst. eapply Rle_trans; [|apply (HB s t 0%nat _ Hst Hnc (component_exists f 0))]. apply abs15_pos. }
  clear HB. induction T as [|st T IH]; [cbn; lra|]. cbn [map]. rewrite rsum_cons. specialize (IH (fun x Hx => F x (or_intror Hx))). specialize (F st (or_introl eq_refl)). lra.
Qed.

Lemma over_ext_le (g g' : R -> R -> R) D : (forall s t, In (s, t) D -> g s t <= g' s t) -> over D g <= over D g'.
Proof.
  unfold over. induction D as [|[s t] D IH]; intros H; [cbn; lra|]. cbn [map fst snd]. rewrite !rsum_cons.
  specialize (IH (fun a b Hx => H a b (or_intror Hx))). specialize (H s t (or_introl eq_refl)). lra.
Qed.
Lemma over_le_abs (g a : R -> R -> R) D : (forall s t, Rabs (g s t) <= a s t) -> Rabs (over D g) <= over D a.
Proof.
  intros H. unfold over. induction D as [|[s t] D IH]; [cbn; rewrite Rabs_R0; lra|]. cbn [map fst snd]. rewrite !rsum_cons.
  eapply Rle_trans; [apply Rabs_triang|]. specialize (H s t). lra.
Qed.

(** The magnitude that panels contribute. *)
Lemma magn_rd nc ps l u B : (0 < nc)%nat -> (length ps <= N)%nat -> Forall (panel_near old sg p f) ps -> (l < length (vcols p))%nat -> computed_by old p l u ->
  bounds15 f nc u (map pspan ps) B ->
  is_double (cmaxd nc (fun c => sm (map (fun q => pmagn q l c) ps))) /\
  0 <= cmaxd nc (fun c => sm (map (fun q => pmagn q l c) ps)) <= (1 + sg) * (1 + sg) * over (map pspan ps) B.
Proof.
  intros Hnc HL Hps Hl Hu HB. destruct (cmaxd_in nc (fun c => sm (map (fun q => pmagn q l c) ps)) Hnc) as (c & Hc & ->).
  destruct Hsm as [Hsg Hs]. rewrite Forall_forall in Hps.
  destruct (Hs (map (fun q => pmagn q l c) ps)) as [Dm Em].
  { rewrite map_length. exact HL. }
  { apply Forall_forall. intros x Hx. apply in_map_iff in Hx as (q & <- & Hq). apply double_abs. apply (Hps q Hq). }
  split; [exact Dm|].
  assert (Ha : map Rabs (map (fun q => pmagn q l c) ps) = map (fun q => pmagn q l c) ps).
  { rewrite map_map. apply map_ext. intros q. unfold pmagn. apply Rabs_Rabsolu. }
  rewrite Ha in Em. assert (Hb : 0 <= rsum (map (fun q => pmagn q l c) ps) <= (1 + sg) * over (map pspan ps) B).
  { clear - HB Hps Hc Hl Hu Hsg. unfold over. induction ps as [|q ps IH]; [cbn; lra|]. cbn [map]. rewrite !rsum_cons.
    assert (IH' := IH (fun q' Hq => Hps q' (or_intror Hq)) (fun s t c' h' Hst => HB s t c' h' (or_intror Hst))).
    destruct (proj2 (Hps q (or_introl eq_refl)) l c u _ Hl Hu (component_exists f c)) as [_ E].
    pose proof (HB (fst (pspan q)) (snd (pspan q)) c _ (or_introl (surjective_pairing (pspan q))) Hc (component_exists f c)) as HBq.
    pose proof (abs15_sum u (fun x => match f x with Ok v => nth c v 0 | Raise _ => 0 end) (fst (pspan q)) (snd (pspan q))) as HA.
    pose proof (abs15_pos u (fun x => match f x with Ok v => nth c v 0 | Raise _ => 0 end) (fst (pspan q)) (snd (pspan q))) as HA0.
    unfold pmagn at 1 3. set (a := abs15 _ _ _ _) in *. set (y := sum15 _ _ _ _) in *.
    assert (Rabs (pint10 q l c) <= (1 + sg) * a). { replace (pint10 q l c) with ((pint10 q l c - y) + y) by ring. eapply Rle_trans; [apply Rabs_triang|]. lra. }
    assert ((1 + sg) * a <= (1 + sg) * B (fst (pspan q)) (snd (pspan q))) by (apply Rmult_le_compat_l; lra).
    pose proof (Rabs_pos (pint10 q l c)). lra. }
  apply Rabs_le_inv in Em. set (S := rsum _) in *. set (o := over _ _) in *. assert (sg * S <= 1 * S) by (apply Rmult_le_compat_r; lra). split; [lra|].
  assert ((1 + sg) * S <= (1 + sg) * ((1 + sg) * o)) by (apply Rmult_le_compat_l; lra). lra.
Qed.

Lemma inv_step n shape t D iv nc ps : inv n shape t D iv -> (0 < nc)%nat -> (forall k, shape = Some k -> nc = k) ->
  (length ps <= N)%nat -> map pspan ps = iv -> Forall (panel_near old sg p f) ps ->
  let ok := converged_rd rnd64 sm (length (vcols p)) nc rtol t ps in
  inv (S n) (Some nc) (accumulate_rd rnd64 sm nc t (filter ok ps)) (D ++ map pspan (filter ok ps)) (map pspan (filter (fun q => negb (ok q)) ps)).
Proof.
  intros I Hnc Hsh HL Hspan Hps ok. pose proof Hsm as [Hsg _]. pose proof v64_bounds as Hv.
  pose proof (Permutation_map pspan (filter_perm ok ps)) as HP. rewrite map_app, Hspan in HP.
  assert (HPD : Permutation (D ++ iv) ((D ++ map pspan (filter ok ps)) ++ map pspan (filter (fun q => negb (ok q)) ps))).
  { rewrite <- app_assoc. apply Permutation_app_head, HP. }
  assert (Hpf : Forall (panel_near old sg p f) (filter ok ps)).
  { rewrite Forall_forall in *. intros q Hq. apply filter_In in Hq as [Hq _]. auto. }
  assert (HLf : (length (filter ok ps) <= N)%nat).
  { eapply Nat.le_trans; [|exact HL]. apply filter_len. }
  assert (Hbase := growth_base sg n (proj1 Hsg)).
  assert (HG1 : 1 <= growth sg n) by (eapply Rle_trans; [|exact Hbase]; nra).
  split.
  - eapply tiles_perm; [exact HPD|exact (inv_tiles _ _ _ _ _ I)].
  - pose proof (inv_ends _ _ _ _ _ I) as F. rewrite Forall_forall in *. intros x Hx. apply F, (Permutation_in _ (Permutation_sym HPD)), Hx.
  - discriminate.
  - intros nc' [= <-]. auto.
  - intros l c. cbn [accumulate_rd tvalue terror tmagn]. repeat split; apply rnd64_double.
  - intros l c u h Hl Hu Hc. destruct (inv_value _ _ _ _ _ I l c u h Hl Hu Hc) as [V E]. destruct (inv_double _ _ _ _ _ I l c) as (D1 & D2 & _).
    cbn [accumulate_rd tvalue terror]. rewrite !over_app, growth_S. rewrite Forall_forall in Hpf. split.
    + destruct (total_step N sg sm (fun q => pint10 q l c) (fun q => sum15 u h (fst (pspan q)) (snd (pspan q))) (fun q => abs15 u h (fst (pspan q)) (snd (pspan q)))
                  (filter ok ps) (tvalue t l c) (over D (sum15 u h)) (over D (abs15 u h)) (1 + sg) (growth sg n) Hsm HLf) as (R & _ & _); auto; try lra.
      * intros q Hq. destruct (Hpf q Hq) as [HD HQ]. destruct (HQ l c u h Hl Hu Hc) as [_ Q]. split; [apply HD|]. split; [|apply abs15_sum]. replace (1 + sg - 1) with sg by ring. exact Q.
      * apply over_le_abs. intros; apply abs15_sum.
      * apply growth_base2, Hsg.
      * unfold psum in R. unfold over. rewrite !map_map. exact R.
    + destruct (total_step N sg sm (fun q => pdiff_rd rnd64 q l c) (fun q => Rabs (sum31 u h (fst (pspan q)) (snd (pspan q)) - sum15 u h (fst (pspan q)) (snd (pspan q))))
                  (fun q => abs31 u h (fst (pspan q)) (snd (pspan q)) + abs15 u h (fst (pspan q)) (snd (pspan q)))
                  (filter ok ps) (terror t l c) (over D (fun a b => Rabs (sum31 u h a b - sum15 u h a b))) (over D (fun a b => abs31 u h a b + abs15 u h a b))
                  ((1 + sg) * (1 + v64)) (growth sg n) Hsm HLf) as (R & _ & _); auto; try lra.
      * intros q Hq. destruct (diff_near old sg p f q l c u h (proj1 Hsg) (Hpf q Hq) Hl Hu Hc) as (Q1 & Q2 & Q3 & _). auto.
      * nra.
      * apply over_le_abs. intros s' t'. rewrite Rabs_Rabsolu. pose proof (abs31_sum u h s' t'). pose proof (abs15_sum u h s' t').
        unfold Rminus. eapply Rle_trans; [apply Rabs_triang|]. rewrite Rabs_Ropp. lra.
      * unfold psum in R. unfold over. rewrite !map_map. exact R.
  - intros l u B Hl Hu HB. specialize (HB nc eq_refl).
    assert (HB1 : bounds15 f nc u D B) by (intros s' t' c h Hin; apply HB, in_or_app; left; exact Hin).
    assert (HB2 : bounds15 f nc u (map pspan (filter ok ps)) B) by (intros s' t' c h Hin; apply HB, in_or_app; right; exact Hin).
    pose proof (inv_magn _ _ _ _ _ I l u B Hl Hu (fun k Hk => eq_ind _ (fun m => bounds15 f m u D B) HB1 _ (Hsh k Hk))) as M1.
    destruct (magn_rd nc _ l u B Hnc HLf Hpf Hl Hu HB2) as [Dm M2]. destruct (inv_double _ _ _ _ _ I l 0%nat) as (_ & _ & D3).
    cbn [accumulate_rd tmagn]. rewrite over_app, growth_S. pose proof (add64 _ _ D3 Dm) as Ea.
    set (x := tmagn t l) in *. set (y := cmaxd _ _) in *. rewrite (Rabs_pos_eq (x + y)) in Ea by lra. apply Rabs_le_inv in Ea.
    set (o1 := over D B) in *. set (o2 := over (map pspan (filter ok ps)) B) in *.
    assert (0 <= o2). { assert (0 <= (1 + sg) * (1 + sg) * o2) by lra. assert (1 <= (1 + sg) * (1 + sg)) by nra. destruct (Rle_lt_dec 0 o2); auto. nra. }
    assert ((1 + sg) * (1 + sg) <= growth sg n) by (apply growth_base2, Hsg).
    assert ((1 + sg) * (1 + sg) * o2 <= growth sg n * o2) by (apply Rmult_le_compat_r; lra).
    split; [nra|]. assert (x + y <= growth sg n * (o1 + o2)) by lra.
    assert ((1 + v64) * (x + y) <= (1 + v64) * (growth sg n * (o1 + o2))) by (apply Rmult_le_compat_l; lra). lra.
  - intros nc' st [= <-] Hst. apply in_app_or in Hst as [Hst|Hst].
    + destruct shape as [k|] eqn:Es.
      * rewrite (Hsh k eq_refl). apply (tolerant_mono n); [lia|exact (inv_nc _ _ _ _ _ I k eq_refl)|]. exact (inv_tol _ _ _ _ _ I k st eq_refl Hst).
      * rewrite (inv_fresh _ _ _ _ _ I eq_refl) in Hst. destruct Hst.
    + apply in_map_iff in Hst as (q & <- & Hq). apply filter_In in Hq as [Hq Hok]. intros r Hr.
      exists (D ++ iv). split; [exact (inv_tiles _ _ _ _ _ I)|]. split; [apply in_or_app; right; rewrite <- Hspan; apply in_map, Hq|].
      unfold ok, converged_rd in Hok. rewrite forallb_forall in Hok. rewrite Hr in Hok.
      assert (Hkey : forall l u B, (l < length (vcols p))%nat -> computed_by old p l u -> bounds15 f nc u (D ++ iv) B ->
                0 <= r /\ (1 - v64) * cmaxd nc (pdiff_rd rnd64 q l) <= (r + eta64) * (growth sg (S n) * over (D ++ iv) B)).
      { intros l u B Hl Hu HB. specialize (Hok l (proj2 (in_seq _ _ _) (conj (Nat.le_0_l _) Hl))).
        assert (HB1 : bounds15 f nc u D B) by (intros s' t' c h Hin; apply HB, in_or_app; left; exact Hin).
        assert (HB2 : bounds15 f nc u (map pspan ps) B) by (intros s' t' c h Hin; apply HB, in_or_app; right; rewrite <- Hspan; exact Hin).
        pose proof (inv_magn _ _ _ _ _ I l u B Hl Hu (fun k Hk => eq_ind _ (fun m => bounds15 f m u D B) HB1 _ (Hsh k Hk))) as M1.
        destruct (magn_rd nc _ l u B Hnc HL Hps Hl Hu HB2) as [Dm M2]. destruct (inv_double _ _ _ _ _ I l 0%nat) as (_ & _ & D3).
        pose proof (add64 _ _ D3 Dm) as Ea. assert (Hge : 0 <= magnitude_rd rnd64 sm nc t ps l <= growth sg (S n) * over (D ++ iv) B).
        { unfold magnitude_rd. rewrite over_app, growth_S, <- Hspan. set (x := tmagn t l) in *. set (y := cmaxd nc (fun c => sm (map (fun q0 => pmagn q0 l c) ps))) in *. rewrite (Rabs_pos_eq (x + y)) in Ea by lra. apply Rabs_le_inv in Ea.
          set (o1 := over D B) in *. set (o2 := over (map pspan ps) B) in *.
          assert (0 <= o2). { assert (0 <= (1 + sg) * (1 + sg) * o2) by lra. assert (1 <= (1 + sg) * (1 + sg)) by nra. destruct (Rle_lt_dec 0 o2); auto. nra. }
          assert ((1 + sg) * (1 + sg) <= growth sg n) by (apply growth_base2, Hsg).
          assert ((1 + sg) * (1 + sg) * o2 <= growth sg n * o2) by (apply Rmult_le_compat_r; lra).
          split; [nra|]. assert (x + y <= growth sg n * (o1 + o2)) by lra.
          assert ((1 + v64) * (x + y) <= (1 + v64) * (growth sg n * (o1 + o2))) by (apply Rmult_le_compat_l; lra). lra. }
        destruct (cmaxd_in nc (pdiff_rd rnd64 q l) Hnc) as (c & Hc & Ec).
        apply xdiv_rd_le in Hok as (H0 & H1 & H2); [|rewrite Ec; apply Rabs_pos|lra]. split; [exact H1|].
        assert (0 <= eta64) by (unfold eta64; apply Flocq.Core.Raux.bpow_ge_0).
        eapply Rle_trans; [exact H2|]. apply Rmult_le_compat_l; lra. }
      intros l u B c h Hl Hu HB Hcn Hc. destruct (Hkey l u B Hl Hu HB) as [K0 K]. split; [exact K0|]. rewrite Forall_forall in Hps.
      destruct (diff_near old sg p f q l c u h (proj1 Hsg) (Hps q Hq) Hl Hu Hc) as (_ & _ & _ & Q).
      pose proof (cmaxd_ge nc (pdiff_rd rnd64 q l) c Hcn) as Hd.
      eapply Rle_trans; [|exact K]. cbn [pow]. rewrite Rmult_1_r, Rmult_assoc. apply Rmult_le_compat_l; [lra|]. lra.
Qed.

Lemma levels_rd_inv m : forall n shape t D iv t' sh' w, inv n shape t D iv -> iv <> [] ->
  levels_rd rnd64 old sm m mp p f rtol shape t iv = Ok (t', sh', w) ->
  exists n' D' iv', (n' <= n + m)%nat /\ inv n' sh' t' D' iv' /\ (w = true -> iv' <> []) /\ (w = false -> iv' = []).
Proof.
  induction m as [|m IH]; intros n shape t D iv t' sh' w I Hne H; cbn [levels_rd] in H.
  - injection H as <- <- <-. exists n, D, iv. split; [lia|]. split; [exact I|]. split; [auto|discriminate].
  - destruct (Nat.ltb_spec mp (length iv)) as [Hlt|Hle]; [injection H as <- <- <-; exists n, D, iv; split; [lia|]; split; [exact I|]; split; [auto|discriminate]|].
    destruct (sample_rd rnd64 f shape iv) as [[nc fx]|] eqn:Es; [|discriminate]. cbn [bind fst snd] in H.
    destruct (poly_values_rd old rnd64 p iv) as [px|] eqn:Ep; [|discriminate]. cbn [bind] in H.
    apply sample_rd_ok in Es as (F1 & Hsh). apply poly_values_rd_ok in Ep.
    destruct (level_panels_rd old N sg sm p f iv fx px Hsm HN F1 Ep) as [Hspan Hps]. cbv zeta in Hspan, Hps, H.
    set (ps := map2 (fun st d => make_panel_rd rnd64 sm st (fst d) (snd d)) iv (combine fx px)) in *.
    destruct (Nat.eq_dec nc 0) as [->|Hnc]; [rewrite cmax_none in H; discriminate|]. rewrite cmax_some in H by lia. cbn [bind] in H.
    assert (HL : (length ps <= N)%nat) by (rewrite <- Hspan, map_length in Hle; lia).
    pose proof (inv_step n shape t D iv nc ps I ltac:(lia) Hsh HL Hspan Hps) as I'. cbv zeta in I'.
    set (ok := converged_rd rnd64 sm (length (vcols p)) nc rtol t ps) in *.
    destruct (forallb ok ps) eqn:Eok.
    + injection H as <- <- <-. exists (S n), (D ++ map pspan (filter ok ps)), (map pspan (filter (fun q => negb (ok q)) ps)).
      split; [lia|]. split; [exact I'|]. split; [discriminate|]. intros _. replace (filter (fun q => negb (ok q)) ps) with (@nil panel); [reflexivity|].
      symmetry. apply filter_none. exact Eok.
    + assert (Hpend : map pspan (filter (fun q => negb (ok q)) ps) <> []).
      { intros E. apply map_eq_nil in E. assert (forallb ok ps = true); [|congruence]. apply forallb_forall. intros q Hq.
        destruct (ok q) eqn:Eq; auto. assert (In q (filter (fun q => negb (ok q)) ps)) by (apply filter_In; rewrite Eq; auto). rewrite E in H0. destruct H0. }
      apply (IH (S n) _ _ (D ++ map pspan (filter ok ps))) in H; auto.
      * destruct H as (n' & D' & iv' & A & B). exists n', D', iv'. split; [lia|exact B].
      * destruct I' as [T E1 E2 E3 E4 E5 E6 E7]. apply Forall_app in E1 as [E1 E1']. split; auto.
        -- apply tiles_refine64; auto.
        -- apply Forall_app. split; [exact E1|apply cells_list_double, E1'].
      * destruct (map pspan (filter (fun q => negb (ok q)) ps)) as [|st r]; [congruence|]. cbn [flat_map cells_rd]. discriminate.
Qed.

Lemma inv_start : StronglySorted Rle kn -> Forall is_double kn -> inv 0 None totals0 [] (combine (removelast kn) (tl kn)).
Proof.
  intros H F. split; cbn [app totals0 tvalue terror tmagn]; auto; try discriminate.
  - apply tiles_start, H.
  - apply Forall_forall. intros [a b] Hab. rewrite Forall_forall in F. fold (pairs kn) in Hab. apply pairs_in in Hab as (x & y & E).
    split; apply F; rewrite E; apply in_or_app; right; cbn; auto.
  - intros; repeat split; apply double_0.
  - intros. unfold over, rsum. cbn. rewrite Rminus_0_r, Rabs_R0. lra.
  - intros l u B _ _ _. unfold over, rsum. cbn. lra.
Qed.
End Loop.

(** The whole computation. *)
Theorem overlap_rd_partition old N sg sm p f rtol ml mp points val err nc warned :
  sums_near N sg sm -> (31 <= N)%nat -> (mp <= N)%nat -> StronglySorted Rle (gknots (vgeom p)) -> Forall is_double (start_knots p points) ->
  compute_overlap_rd rnd64 old sm p f rtol ml mp points = Ok (val, err, nc, warned) ->
  exists n t D iv, (n <= ml)%nat /\ inv old sg p f rtol (start_knots p points) n (Some nc) t D iv /\ tvalue t = val /\ terror t = err /\ (warned = true <-> iv <> []).
Proof.
  intros Hsm HN Hmp Hs Hd H. unfold compute_overlap_rd in H. fold (start_knots p points) in H. cbv zeta in H.
  destruct (levels_rd rnd64 old sm ml mp p f rtol None totals0 (combine (init (start_knots p points)) (tl (start_knots p points)))) as [[[t sh] w]|] eqn:E; [|discriminate].
  cbn [bind] in H. destruct sh as [k|]; [|discriminate]. injection H as <- <- -> ->.
  destruct (combine (init (start_knots p points)) (tl (start_knots p points))) as [|st iv0] eqn:Ei.
  { destruct ml; cbn in E; discriminate. }
  pose proof (inv_start old sg p f rtol _ (start_sorted p points Hs) Hd) as I0. change (removelast (start_knots p points)) with (init (start_knots p points)) in I0.
  rewrite Ei in I0. eapply (levels_rd_inv old N sg sm mp p f rtol (start_knots p points) Hsm HN Hmp ml 0) in E; [|exact I0|discriminate].
  destruct E as (n & D & iv & Hn & I & A & B).
  exists n, t, D, iv. split; [lia|]. split; [exact I|]. split; [auto|]. split; [auto|]. split; [exact A|]. intros H. destruct warned; [auto|elim H; auto].
Qed.
