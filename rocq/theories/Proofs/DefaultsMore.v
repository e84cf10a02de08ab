From Coq Require Import Reals Lra.
From Coquelicot Require Import Coquelicot.
From Coq Require Import List ZArith Bool Lia Permutation Sorted Arith FunctionalExtensionality.
From Flocq Require Import Core.
From Verif.Model Require Import Base Num Roots Poly PolyIEEE IEEE SVE Basis BasisIEEE NDArray Sampling TransformIEEE DefaultsIEEE.
From Verif.Spec Require Import SRoots SPoly SPolyIEEE SKernelIEEE SBasisIEEE SDefaultsIEEE.
From Verif.Proofs Require Import BaseFacts SumFacts PPolyFacts RootsFacts RootsCont IEEEFacts RootsIEEE PolyRound KernelRoundCall BasisRoundGeom BasisRound OpsRound TransformRoundProps
  DefaultsRound DefaultsRoots DefaultsTau DefaultsDeriv.
Import ListNotations.
Open Scope R_scope.

(** * Without rounding *)
Notation idr := (fun t : R => t).

Section Map.
Context {V1 V2 : Type} (h : V1 -> V2) (sb1 : V1 -> bool) (sb2 : V2 -> bool) (iz1 : V1 -> bool) (iz2 : V2 -> bool) (f1 : R -> V1).
Hypothesis Hsb : forall v, sb2 (h v) = sb1 v.
Hypothesis Hiz : forall v, iz2 (h v) = iz1 v.
Notation f2 := (fun x => h (f1 x)).
Definition hb (c : bracket R V1) : bracket R V2 := mkbr (ba c) (bb c) (h (bfa c)) (h (bfb c)).

Lemma next_map rnd c : rnext rnd sb2 f2 (hb c) = hb (rnext rnd sb1 f1 c).
Proof. unfold rnext, halve. unfold rmid. cbn [hb ba bb bfa bfb]. rewrite !Hsb. destruct (negb _); reflexivity. Qed.
Lemma found_map rnd xeps c : rfound rnd sb2 f2 xeps (hb c) = rfound rnd sb1 f1 xeps c.
Proof. unfold rfound. rewrite next_map. reflexivity. Qed.

Lemma filter_map_comm {A B} (q : A -> B) (P : B -> bool) l : filter P (map q l) = map q (filter (fun x => P (q x)) l).
Proof. induction l as [|a l IH]; [reflexivity|]. cbn. destruct (P (q a)); cbn; rewrite IH; reflexivity. Qed.
Lemma existsb_map' {A B} (q : A -> B) (P : B -> bool) l : existsb P (map q l) = existsb (fun x => P (q x)) l.
Proof. induction l as [|a l IH]; [reflexivity|]. cbn. rewrite IH. reflexivity. Qed.
Lemma forallb_map' {A B} (q : A -> B) (P : B -> bool) l : forallb P (map q l) = forallb (fun x => P (q x)) l.
Proof. induction l as [|a l IH]; [reflexivity|]. cbn. rewrite IH. reflexivity. Qed.

Lemma bisect_map rnd xeps fuel : forall k, bisect_cont rnd sb2 f2 xeps fuel (map hb k) = bisect_cont rnd sb1 f1 xeps fuel k.
Proof.
  assert (Ef : (fun c => rfound rnd sb2 f2 xeps (hb c)) = rfound rnd sb1 f1 xeps) by (apply functional_extensionality; intros; apply found_map).
  assert (En : forall k, map (rnext rnd sb2 f2) (map hb k) = map hb (map (rnext rnd sb1 f1) k)) by (intros; rewrite !map_map; apply map_ext; intros; apply next_map).
  induction fuel as [|fuel IH]; intros k; [reflexivity|]. rewrite !bisect_cont_S, existsb_map', forallb_map', !filter_map_comm, Ef.
  assert (Eg : (fun c => negb (rfound rnd sb2 f2 xeps (hb c))) = (fun c => negb (rfound rnd sb1 f1 xeps c))) by (apply functional_extensionality; intros; rewrite found_map; reflexivity).
  rewrite Eg, !En, !IH, map_map. reflexivity.
Qed.

Lemma find_map rnd fuel grid : find_all_cont rnd sb2 iz2 fuel f2 grid = find_all_cont rnd sb1 iz1 fuel f1 grid.
Proof.
  unfold find_all_cont. rewrite !find_all_unfold. cbv zeta.
  assert (E1 : filter (fun x => iz2 (h (f1 x))) grid = filter (fun x => iz1 (f1 x)) grid) by (apply filter_ext; intros; apply Hiz).
  assert (E2 : filter (sc_pair sb2 iz2 f2) (pairs grid) = filter (sc_pair sb1 iz1 f1) (pairs grid)) by (apply filter_ext; intros [a b]; unfold sc_pair; cbn; rewrite !Hsb, !Hiz; reflexivity).
  rewrite E1, E2. assert (E3 : forall l, map (mk f2) l = map hb (map (mk f1) l)) by (intros; rewrite map_map; reflexivity). rewrite E3.
  destruct (map (mk f1) (filter (sc_pair sb1 iz1 f1) (pairs grid))) as [|c l] eqn:E; [reflexivity|]. cbn [map]. change (hb c :: map hb l) with (map hb (c :: l)). rewrite bisect_map. reflexivity.
Qed.
End Map.

Definition alike (p q : spoly) : Prop :=
  sgeom p = sgeom q /\ csym (scol p) = csym (scol q) /\ forall k i, (k < glen (sgeom q))%nat -> cdat (scol p) k i = cdat (scol q) k i.

Lemma value_exact old p q x : alike p q -> value_at old idr p x = cval (sgeom q) (scol q) x.
Proof.
  intros (E1 & _ & E3). unfold value_at, piece_rd, cval. cbv zeta. rewrite E1. rewrite (proj1 (exact_arithmetic old)). f_equal.
  unfold legval. apply sumn_ext. intros k Hk. rewrite E3 by exact Hk. reflexivity.
Qed.

Lemma legder_exact n c k : (k < legder1_len n)%nat -> legder_rd idr n c k = legder1 n c k.
Proof.
  intros Hk. unfold legder1_len in Hk. unfold legder_rd, legder1. destruct (Nat.leb_spec n 1) as [L|L].
  - rewrite sumn_zero; [lra|]. intros j Hj. destruct (Nat.ltb_spec k j); [lia|reflexivity].
  - rewrite odd_sum by lia. cbv zeta. assert (E : forall m j, legacc idr c m j = every2 c m j) by (induction m as [|m IH]; intros j; cbn; [reflexivity|rewrite IH; reflexivity]).
    rewrite E. destruct k; [cbn [INR]; ring|reflexivity].
Qed.

Lemma deriv_alike p q : alike p q -> alike (sderiv_rd idr p) (sderiv 1 q).
Proof.
  intros (E1 & E2 & E3). unfold alike, sderiv_rd, sderiv, cderiv_rd, cderiv. cbn [sgeom scol csym cdat]. rewrite E1, E2. split; [reflexivity|]. split; [ring|].
  intros k i Hk. cbn [gderiv glen legder_len Nat.iter] in Hk. change (legder_len 1 (glen (sgeom q))) with (legder1_len (glen (sgeom q))) in Hk.
  rewrite legder_exact by exact Hk. cbn [legder pow]. rewrite Rmult_1_r. unfold legder1. f_equal. f_equal. apply sumn_ext. intros j Hj. rewrite E3 by exact Hj. reflexivity.
Qed.

Lemma refine_exact l alpha : refine_grid_rd idr l alpha = refine_grid l alpha.
Proof.
  unfold refine_grid_rd, refine_grid. f_equal. generalize (some_step_zero idr l alpha) as z. intros z. induction l as [|a [|b l] IH]; [reflexivity|reflexivity|].
  rewrite pairs_rd_cons, IH. change (refine_pairs (a :: b :: l) alpha) with (map (fun j => a + INR j * ((b - a) / INR alpha)) (seq 0 alpha) ++ refine_pairs (b :: l) alpha).
  f_equal. apply map_ext. intros j. unfold step_rd, Rdiv. destruct z; ring.
Qed.

Lemma roots_exact old fuel p q alpha : alike p q -> roots_rd old idr (fun _ => false) fuel p alpha = roots idr fuel q alpha.
Proof.
  intros H. pose proof H as (E1 & E2 & E3). unfold roots_rd, roots. cbv zeta.
  assert (K : roots_knots_rd idr p = roots_knots q) by (unfold roots_knots_rd, roots_knots; cbv zeta; rewrite E1, E2; reflexivity). rewrite K, refine_exact, E1, E2.
  assert (Fv : (fun x => (value_at old idr p x, false)) = (fun x => (cval (sgeom q) (scol q) x, false))) by (apply functional_extensionality; intros x; rewrite (value_exact old p q x H); reflexivity).
  rewrite Fv, (find_map (fun v => (v, false)) rsignbit sign_of (fun v => Reqb v 0) (fun v => Reqb (fst v) 0) (cval (sgeom q) (scol q))).
  - destruct (find_all_cont _ _ _ _ _ _) as [rs|]; [|reflexivity]. change (xmid_rd idr (sgeom q)) with (xmid (sgeom q)).
    rewrite (value_exact old p q _ H), (value_exact old _ _ _ (deriv_alike p q H)). reflexivity.
  - intros v. unfold sign_of, rsignbit. cbn. destruct (Reqb v 0) eqn:E; [|reflexivity]. apply Reqb_true in E. subst v. symmetry. apply Rltb_false. lra.
  - reflexivity.
Qed.

Lemma points_exact old fuel u L : default_points_rd old idr (fun _ => false) fuel u L = default_sampling_points idr fuel u L.
Proof.
  unfold default_points_rd, default_sampling_points. destruct (_ || _); [reflexivity|]. cbv zeta. destruct (L <? _)%Z.
  - destruct (getitem u L) as [p|]; [|reflexivity]. rewrite (roots_exact old fuel p p 2); [reflexivity|]. repeat split.
  - destruct (getitem u (-1)) as [p|]; [|reflexivity]. rewrite (roots_exact old fuel (sderiv_rd idr p) (sderiv 1 p) 2); [reflexivity|]. apply deriv_alike. repeat split.
Qed.

Lemma defaults_exact old fuel b npoints :
  default_tau_rd old idr (fun _ => false) fuel b npoints = default_tau idr fuel b npoints /\
  default_omega_rd old idr (fun _ => false) fuel b npoints = default_omega idr fuel b npoints.
Proof. unfold default_tau_rd, default_tau, default_omega_rd, default_omega. rewrite !points_exact. split; reflexivity. Qed.

(** * Points of a basis *)
Lemma source_exists rd u n : vcols u <> [] -> exists p, source_rd rd u n p.
Proof.
  intros Ne. unfold source_rd. destruct (Nat.ltb_spec n (length (vcols u))) as [L|L].
  - destruct (proj1 (PPolyFacts.pyindex_some (vcols u) (Z.of_nat n)) ltac:(lia)) as (c & E). unfold getitem. rewrite E. eauto.
  - assert (0 < length (vcols u))%nat by (destruct (vcols u); [congruence|cbn; lia]).
    destruct (proj1 (PPolyFacts.pyindex_some (vcols u) (-1)%Z) ltac:(lia)) as (c & E). unfold getitem. rewrite E. eauto.
Qed.

Section Basis.
Context (pw : R -> Z -> R) (compute : kern -> option R -> res sve_result) (b : basis) (Hb : built_rd u64 eta64 rnd64 pw compute b).
Context (old : bool) (nz : R -> bool) (npoints : option Z) (n : nat) (Hn : npoints_or_size b npoints = Z.of_nat n).

Lemma stored_facts u : stored u64 eta64 u -> Forall is_double (gknots (vgeom u)) ->
  geom_near u64 eta64 (vgeom u) /\ gxmin (vgeom u) = -1 /\ gxmax (vgeom u) = 1 /\ Forall is_double (gknots (vgeom u)) /\ (0 < glen (vgeom u))%nat.
Proof. intros (A & B & C & _ & D & E) F. repeat split; try assumption; try apply A. lia. Qed.

Lemma parts : stored u64 eta64 (su (bsve b)) /\ stored u64 eta64 (sv (bsve b)) /\ vcols (su (bsve b)) <> [] /\ vcols (sv (bsve b)) <> [] /\ 0 < bbeta b /\ 0 < bwmax b /\
  gxmin (vgeom (bu b)) = rnd64 (rnd64 (bbeta b / 2) * rnd64 (-1 + 1)) /\ gxmax (vgeom (bu b)) = rnd64 (rnd64 (bbeta b / 2) * rnd64 (1 + 1)) /\
  gxmin (vgeom (bv b)) = rnd64 (bwmax b * -1) /\ gxmax (vgeom (bv b)) = rnd64 (bwmax b * 1).
Proof.
  destruct (built_full u64 eta64 rnd64 pw compute rounding_double b Hb) as (lam & q & f & f' & P1 & P2 & Ex & _ & _ & _ & _ & _ & _ & _ & _ & Eb).
  pose proof Ex as (Su & Sv & Lu & Lv & Ne & _). pose proof Su as (Gu & Xu1 & Xu2 & _). pose proof Sv as (Gv & Xv1 & Xv2 & _).
  assert (NU : vcols (su (bsve b)) <> []) by (intros E; rewrite E in Lu; destruct (ss (bsve b)); [congruence|discriminate]).
  assert (NV : vcols (sv (bsve b)) <> []) by (intros E; rewrite E in Lv; destruct (ss (bsve b)); [congruence|discriminate]).
  assert (Nth : forall (fn : R -> R) l i, (i < length l)%nat -> nth i (map fn l) 0 = fn (nth i l 0)) by (intros fn l i Hi; rewrite (nth_indep _ 0 (fn 0)) by (rewrite map_length; exact Hi); apply map_nth).
  destruct Gu as (_ & Ku & _). destruct Gv as (_ & Kv & _).
  split; [exact Su|]. split; [exact Sv|]. split; [exact NU|]. split; [exact NV|]. split; [exact P1|]. split; [exact P2|].
  rewrite Eb. cbn [the_basis_rd bu bv bbeta bwmax bsve vgeom]. unfold u_moved, v_moved, moved_geom, gxmin, gxmax in *. cbn [gknots gnseg].
  rewrite !Nth by lia. rewrite Xu1, Xu2, Xv1, Xv2. auto.
Qed.

Definition tau_of (x : R) : R := rnd64 (rnd64 (bbeta b / 2) * rnd64 (x + 1)).
Definition omega_of (y : R) : R := rnd64 (bwmax b * y).
Lemma tau_of_mono x y : x <= y -> tau_of x <= tau_of y.
Proof.
  intros H. destruct parts as (_ & _ & _ & _ & P & _). apply rnd64_le, Rmult_le_compat_l; [|apply rnd64_le; lra]. apply rnd64_ge; [apply double_0|lra].
Qed.
Lemma omega_of_mono x y : x <= y -> omega_of x <= omega_of y.
Proof. intros H. destruct parts as (_ & _ & _ & _ & _ & P & _). apply rnd64_le, Rmult_le_compat_l; lra. Qed.

Lemma sorted_map f l : (forall x y, x <= y -> f x <= f y) -> StronglySorted Rle l -> StronglySorted Rle (map f l).
Proof.
  intros H. induction 1 as [|x l S IH F]; cbn; [constructor|]. constructor; [exact IH|]. apply Forall_map. eapply Forall_impl; [|exact F]. cbn. intros; auto.
Qed.

Lemma tau_points p : Forall is_double (gknots (vgeom (su (bsve b)))) -> source_rd rnd64 (su (bsve b)) n p ->
  exists x0 pts, ends_with (fun fuel => default_points_rd old rnd64 nz fuel (su (bsve b)) (Z.of_nat n)) (Ok (x0, negb (Z.of_nat (length x0) =? Z.of_nat n)%Z)) /\
  pts = map tau_of x0 /\ ends_with (fun fuel => default_tau_rd old rnd64 nz fuel b npoints) (Ok (pts, negb (Z.of_nat (length pts) =? Z.of_nat n)%Z)) /\
  StronglySorted Rle pts /\ Forall (fun t => gxmin (vgeom (bu b)) <= t <= gxmax (vgeom (bu b))) pts.
Proof.
  intros D Hs. destruct parts as (Su & _ & _ & _ & P1 & _ & X1 & X2 & _). destruct (points_ok old nz (su (bsve b)) n p (stored_facts _ Su D) Hs) as (x0 & (N & E) & S & Fb & _).
  exists x0, (map tau_of x0). split; [exists N; exact E|]. split; [reflexivity|]. split.
  - exists N. intros fuel Hf. unfold default_tau_rd. rewrite Hn, (E fuel Hf). cbn [scale_points bind]. rewrite map_length. reflexivity.
  - split; [apply sorted_map; [exact tau_of_mono|exact S]|]. apply Forall_map. eapply Forall_impl; [|exact Fb]. cbn. intros x (_ & Hx). rewrite X1, X2.
    split; apply tau_of_mono; lra.
Qed.

Lemma tau_sampling_defaults F model svd : Forall is_double (gknots (vgeom (su (bsve b)))) ->
  exists pts w s, ends_with (fun fuel => default_tau_rd old rnd64 nz fuel b npoints) (Ok (pts, w)) /\ tau_sampling svd (sb_of_basis_rd old rnd64 F model b) pts = Ok s.
Proof.
  intros D. destruct parts as (_ & _ & NU & _). destruct (source_exists rnd64 (su (bsve b)) n NU) as (p & Hs). destruct (tau_points p D Hs) as (x0 & pts & _ & _ & E & _ & B).
  destruct (proj1 (tau_sampling_outcome _ _ _ _ _ b old F model Hb svd pts) B) as (s & Es). exists pts, (negb (Z.of_nat (length pts) =? Z.of_nat n)%Z), s. auto.
Qed.

Lemma omega_points p : Forall is_double (gknots (vgeom (sv (bsve b)))) -> source_rd rnd64 (sv (bsve b)) n p ->
  exists y0 pts, ends_with (fun fuel => default_points_rd old rnd64 nz fuel (sv (bsve b)) (Z.of_nat n)) (Ok (y0, negb (Z.of_nat (length y0) =? Z.of_nat n)%Z)) /\
  pts = map omega_of y0 /\ ends_with (fun fuel => default_omega_rd old rnd64 nz fuel b npoints) (Ok (pts, negb (Z.of_nat (length pts) =? Z.of_nat n)%Z)) /\
  StronglySorted Rle pts /\ Forall (fun t => gxmin (vgeom (bv b)) <= t <= gxmax (vgeom (bv b))) pts /\
  (csym (scol p) = 1 \/ csym (scol p) = -1 -> map Ropp (rev pts) = pts).
Proof.
  intros D Hs. destruct parts as (_ & Sv & _ & _ & _ & P1 & _ & _ & X1 & X2). destruct (points_ok old nz (sv (bsve b)) n p (stored_facts _ Sv D) Hs) as (x0 & (N & E) & S & Fb & Sy & _).
  exists x0, (map omega_of x0). split; [exists N; exact E|]. split; [reflexivity|]. split; [|split; [|split]].
  - exists N. intros fuel Hf. unfold default_omega_rd. rewrite Hn, (E fuel Hf). cbn [scale_points bind]. rewrite map_length. reflexivity.
  - apply sorted_map; [exact omega_of_mono|exact S].
  - apply Forall_map. eapply Forall_impl; [|exact Fb]. cbn. intros x (_ & Hx). rewrite X1, X2. split; apply omega_of_mono; lra.
  - intros Q. rewrite <- (Sy Q) at 2. rewrite <- map_rev, !map_map. apply map_ext. intros y. unfold omega_of. replace (bwmax b * - y) with (- (bwmax b * y)) by ring. symmetry. apply rnd64_odd.
Qed.
End Basis.
