(** Piecewise polynomials whose knots were moved in rounded arithmetic. *)
From Coq Require Import Reals Lra Lia Arith Bool ZArith.
From Coquelicot Require Import Coquelicot.
From Coq Require Import List Sorting.Sorted.
From Verif.Model Require Import Base Util Num Poly PolyIEEE FT SVE Basis BasisIEEE.
From Verif.Spec Require Import SPoly SSVE SBasis SKernelIEEE SPolyIEEE SBasisIEEE.
From Verif.Proofs Require Import BaseFacts UtilFacts SumFacts LegFacts PPolyFacts KernelRoundCall Clenshaw BasisFacts PolyRound BasisRoundPiece.
Import ListNotations.
Open Scope R_scope.
Notation length := List.length.

(** * Lookup among knots that need not be distinct *)
Definition weakly (l : list R) : Prop := forall i, (S i < length l)%nat -> nth i l 0 <= nth (S i) l 0.

Lemma weakly_le l i j : weakly l -> (i <= j < length l)%nat -> nth i l 0 <= nth j l 0.
Proof.
  intros W [H1 H2]. induction H1 as [|j H1 IH]; [apply Rle_refl|]. eapply Rle_trans; [apply IH; lia|]. apply W. exact H2.
Qed.

Lemma filter_count (l : list R) x n : (n <= length l)%nat -> (forall i, (i < n)%nat -> nth i l 0 <= x) -> (forall i, (n <= i < length l)%nat -> x < nth i l 0) ->
  length (filter (fun k => Rleb k x) l) = n.
Proof.
  revert n. induction l as [|k l IH]; intros n Hn A B; [cbn in *; lia|]. cbn [filter]. destruct n as [|n].
  - assert (X : Rleb k x = false). { destruct (Rleb k x) eqn:E; [|reflexivity]. apply Rleb_true in E. specialize (B 0%nat ltac:(cbn; lia)). cbn in B. lra. }
    rewrite X. apply (IH 0%nat); [lia|intros; lia|]. intros i Hi. apply (B (S i)). cbn. lia.
  - rewrite (proj2 (Rleb_true k x)) by (apply (A 0%nat); lia). cbn [length]. f_equal. cbn in Hn. apply IH; [lia| |].
    + intros i Hi. apply (A (S i)). lia.
    + intros i Hi. apply (B (S i)). cbn. lia.
Qed.

Lemma weak_segment g i x : (0 < gnseg g)%nat -> length (gknots g) = S (gnseg g) -> weakly (gknots g) -> in_segment g i x ->
  in_range g x = true /\ segment g x = i.
Proof.
  intros Hn Hl W (H1 & H2 & H3). unfold knot, gxmax in *. split.
  - unfold in_range, gxmin, gxmax. apply andb_true_intro. split; apply Rleb_true.
    + eapply Rle_trans; [|exact H2]. apply weakly_le; auto. lia.
    + destruct H3 as [H3|[_ ->]]; [|apply Rle_refl]. eapply Rle_trans; [left; exact H3|]. apply weakly_le; auto. lia.
  - unfold segment. destruct H3 as [H3|[E ->]].
    + rewrite (filter_count _ x (S i)); [lia|lia| |].
      * intros j Hj. eapply Rle_trans; [|exact H2]. apply weakly_le; auto. lia.
      * intros j Hj. eapply Rlt_le_trans; [exact H3|]. apply weakly_le; auto. 
    + rewrite (filter_count _ _ (S (gnseg g))); [lia|lia| |intros; lia]. intros j Hj. apply weakly_le; auto. lia.
Qed.

Lemma weak_covers g x : (0 < gnseg g)%nat -> length (gknots g) = S (gnseg g) -> weakly (gknots g) -> gxmin g <= x <= gxmax g ->
  exists i, in_segment g i x.
Proof.
  intros Hn Hl W [H1 H2]. destruct (Rle_lt_or_eq_dec _ _ H2) as [H3|H3].
  - assert (G : forall n, (n <= gnseg g)%nat -> x < knot g n -> exists i, (i < n)%nat /\ knot g i <= x < knot g (S i)).
    { induction n as [|n IH]; intros Ln Lx; [unfold gxmin, knot in *; lra|]. destruct (Rle_or_lt (knot g n) x) as [L|L].
      - exists n. split; [lia|split; auto].
      - destruct (IH ltac:(lia) L) as (i & Hi & Hx). exists i. split; [lia|exact Hx]. }
    destruct (G (gnseg g) (Nat.le_refl _) H3) as (i & Hi & Hx). exists i. split; [exact Hi|]. split; [apply Hx|left; apply Hx].
  - exists (gnseg g - 1)%nat. split; [lia|]. split; [|right; split; [lia|exact H3]]. rewrite H3. unfold knot, gxmax. apply weakly_le; auto. lia.
Qed.

Lemma weak_here g i x : in_segment g i x -> knot g i <= x <= knot g (S i).
Proof. apply here_le. Qed.

(** * The constructor with given lengths *)
Lemma poly_given_inv rd order nseg dat knots dx symm p : poly_given_rd rd order nseg dat knots dx symm = Ok p ->
  p = VPoly (Geom order order nseg knots dx) (map2 Col dat symm) /\ length knots = S nseg /\ weakly knots /\ length dx = nseg /\ length symm = length dat.
Proof.
  unfold poly_given_rd. destruct (Nat.eqb_spec (length knots) (S nseg)) as [E1|]; [|discriminate]. cbn [negb].
  destruct (forallb _ _) eqn:E2; [|discriminate]. cbn [negb]. destruct (Nat.eqb_spec (length symm) (length dat)) as [E3|]; [|discriminate]. cbn [negb].
  destruct (Nat.eqb_spec (length dx) nseg) as [E4|]; [|discriminate]. destruct (allclose_rd _ _ _); [|discriminate]. cbn [andb negb]. intros [= <-].
  split; [reflexivity|]. split; [exact E1|]. split; [|split; assumption]. intros i Hi. apply Rleb_true. exact (proj1 (forallb_map2_le Rleb knots) E2 i Hi).
Qed.

(** * Moved knots *)
Lemma Rabs_sub x y : Rabs (x - y) <= Rabs x + Rabs y.
Proof. unfold Rminus. eapply Rle_trans; [apply Rabs_triang|]. rewrite Rabs_Ropp. apply Rle_refl. Qed.

Lemma nearest_affine a b x : a < b -> nearest (-1) 1 ((2 * x - a - b) / (b - a)) = (2 * nearest a b x - a - b) / (b - a).
Proof.
  intros H. assert (P : 0 < b - a) by lra. set (z := (2 * x - a - b) / (b - a)).
  assert (Z : z * (b - a) = 2 * x - a - b) by (unfold z; field; lra). unfold nearest, Rmax, Rmin.
  destruct (Rle_dec 1 z) as [C1|C1]; destruct (Rle_dec b x) as [C2|C2].
  - destruct (Rle_dec (-1) 1); [|lra]. destruct (Rle_dec a b); [|lra]. field; lra.
  - exfalso. assert (1 * (b - a) <= z * (b - a)) by (apply Rmult_le_compat_r; lra). lra.
  - exfalso. assert (z * (b - a) < 1 * (b - a)) by (apply Rmult_lt_compat_r; lra). lra.
  - destruct (Rle_dec (-1) z) as [C3|C3]; destruct (Rle_dec a x) as [C4|C4]; [reflexivity| | |field; lra].
    + exfalso. assert (-1 * (b - a) <= z * (b - a)) by (apply Rmult_le_compat_r; lra). lra.
    + exfalso. assert (z * (b - a) < -1 * (b - a)) by (apply Rmult_lt_compat_r; lra). lra.
Qed.

Section MovedSet.
Variables (u eta : R) (rd : R -> R).
Hypothesis Hrd : rounding u eta rd.
Hypothesis Hu : 0 < u <= / 10000.
Hypothesis He : 0 <= eta.
Variables (T sh T' : R) (rs : R -> R).
Hypothesis HT : 0 < T.
Hypothesis HT' : Rabs (T' - T) <= u * T + eta.
Hypothesis Hrs : forall x, Rabs (rs x - (x + sh)) <= u * Rabs (x + sh) + eta.
Variable p : vpoly.
Let g := vgeom p.
Hypothesis Hst : stored u eta p.
Hypothesis Hfs : fair_scale u eta T g.
Let f := fun x => rd (T' * rs x).
Let d' := fun d => rd (T' * d).
Let h i := knot g (S i) - knot g i.
Let K i := outer sh g i.

Let Hr : forall x, Rabs (rd x - x) <= u * Rabs x + eta := proj1 Hrd.

Lemma sh_pos i : (i < gnseg g)%nat -> 0 < h i.
Proof. intros Hi. destruct Hst as ((_ & L & S & _) & _). unfold h, knot. fold g in L, S. pose proof (PPolyFacts.sorted_nth_lt _ i (Datatypes.S i) S ltac:(lia)). lra. Qed.

Lemma sK i : Rabs (knot g i + sh) <= K i /\ Rabs (knot g (S i) + sh) <= K i.
Proof. split; [apply Rmax_l|apply Rmax_r]. Qed.

Lemma sh_le i : (i < gnseg g)%nat -> h i <= 2 * K i /\ 0 < K i.
Proof.
  intros Hi. destruct (sK i) as [A B]. pose proof (sh_pos i Hi). pose proof (Rle_abs (knot g (S i) + sh)). pose proof (Rle_abs (- (knot g i + sh))). rewrite Rabs_Ropp in *.
  unfold h in *. split; [lra|]. destruct (Rlt_or_le 0 (knot g (S i) + sh)); lra.
Qed.

Lemma T'_near : Rabs (T' - T) <= 1001 / 1000 * (u * T) /\ Rabs T' <= 1001 / 1000 * T.
Proof.
  destruct Hfs as [F _]. assert (A : Rabs (T' - T) <= 1001 / 1000 * (u * T)) by lra. split; [exact A|].
  pose proof (Rabs_triang_inv T' T) as I. rewrite (Rabs_pos_eq T) in I by lra. assert (u * T <= / 10000 * T) by (apply Rmult_le_compat_r; lra). lra.
Qed.

Lemma moved_near i t s B : (i < gnseg g)%nat -> 0 <= B -> h i <= 2 * B -> Rabs t <= B -> Rabs (s - t) <= u * B + eta -> Rabs (rd (T' * s) - T * t) <= 32 / 10 * (u * (T * B)).
Proof.
  intros Hi PB HB Ht Hs. destruct T'_near as [A1 A2]. destruct Hst as (_ & _ & _ & FL & _). destruct (FL i Hi) as [F1 _]. fold g in F1.
  destruct (proj2 Hfs i Hi) as [F2 _]. fold (h i) in F1, F2.
  assert (u * h i <= u * (2 * B)) by (apply Rmult_le_compat_l; lra). assert (Hs' : Rabs (s - t) <= 1002 / 1000 * (u * B)) by lra.
  assert (UB : 0 <= u * B <= / 10000 * B) by (split; [apply Rmult_le_pos; lra|apply Rmult_le_compat_r; lra]).
  assert (TB : 0 <= T * B) by (apply Rmult_le_pos; lra). assert (UTB : 0 <= u * (T * B) <= / 10000 * (T * B)) by (split; [apply Rmult_le_pos; lra|apply Rmult_le_compat_r; lra]).
  assert (E : Rabs (T' * s - T * t) <= 2006 / 1000 * (u * (T * B))).
  { replace (T' * s - T * t) with (T' * (s - t) + (T' - T) * t) by ring. eapply Rle_trans; [apply Rabs_triang|]. rewrite !Rabs_mult.
    assert (Rabs T' * Rabs (s - t) <= (1001 / 1000 * T) * (1002 / 1000 * (u * B))) by (apply Rmult_le_compat; auto using Rabs_pos).
    assert (Rabs (T' - T) * Rabs t <= (1001 / 1000 * (u * T)) * B) by (apply Rmult_le_compat; auto using Rabs_pos). lra. }
  pose proof (Hr (T' * s)) as R1. pose proof (Rabs_triang (rd (T' * s) - T' * s) (T' * s - T * t)) as Tr.
  replace (rd (T' * s) - T' * s + (T' * s - T * t)) with (rd (T' * s) - T * t) in Tr by ring.
  pose proof (Rabs_triang_inv (T' * s) (T * t)) as I. rewrite (Rabs_mult T t), (Rabs_pos_eq T) in I by lra.
  assert (T * Rabs t <= T * B) by (apply Rmult_le_compat_l; lra).
  assert (u * Rabs (T' * s) <= u * (1001 / 1000 * (T * B))) by (apply Rmult_le_compat_l; lra).
  assert (T * h i <= T * (2 * B)) by (apply Rmult_le_compat_l; lra). assert (u * (T * h i) <= u * (T * (2 * B))) by (apply Rmult_le_compat_l; lra). lra.
Qed.

Lemma knots_near i : (i < gnseg g)%nat ->
  Rabs (f (knot g i) - T * (knot g i + sh)) <= 32 / 10 * (u * (T * K i)) /\ Rabs (f (knot g (S i)) - T * (knot g (S i) + sh)) <= 32 / 10 * (u * (T * K i)).
Proof.
  intros Hi. destruct (sK i) as [A B]. destruct (sh_le i Hi) as [C D].
  split; apply (moved_near i); auto; try lra; (eapply Rle_trans; [apply Hrs|]); apply Rplus_le_compat_r, Rmult_le_compat_l; lra.
Qed.

Lemma dx_near i : (i < gnseg g)%nat -> Rabs (d' (nth i (gdx g) 0) - T * h i) <= 32 / 10 * (u * (T * h i)).
Proof.
  intros Hi. pose proof (sh_pos i Hi) as Ph. destruct Hst as ((_ & _ & _ & _ & D) & _). apply (moved_near i); auto; [lra|lra|rewrite Rabs_pos_eq; lra|exact (D i Hi)].
Qed.

Definition moved_geom : geom := Geom (glen g) (glen g) (gnseg g) (map f (gknots g)) (map d' (gdx g)).

Lemma moved_knot i : (i <= gnseg g)%nat -> knot moved_geom i = f (knot g i).
Proof.
  intros Hi. destruct Hst as ((_ & L & _) & _). fold g in L. unfold knot. cbn [moved_geom gknots].
  rewrite (nth_indep _ 0 (f 0)) by (rewrite map_length; lia). apply map_nth.
Qed.
Lemma moved_dx i : (i < gnseg g)%nat -> nth i (gdx moved_geom) 0 = d' (nth i (gdx g) 0).
Proof.
  intros Hi. destruct Hst as ((_ & _ & _ & L & _) & _). fold g in L. cbn [moved_geom gdx].
  rewrite (nth_indep _ 0 (d' 0)) by (rewrite map_length; lia). apply map_nth.
Qed.

Lemma outer_scaled i : Rmax (Rabs (T * (knot g i + sh))) (Rabs (T * (knot g (S i) + sh))) = T * K i.
Proof. unfold K, outer. rewrite !Rabs_mult, (Rabs_pos_eq T) by lra. symmetry. rewrite RmaxRmult by lra. reflexivity. Qed.

(** Distance of the point from the true segment. *)
Lemma moved_point i x : in_segment moved_geom i x ->
  Rabs (nearest (knot g i) (knot g (S i)) (x / T - sh) - (x / T - sh)) <= 32 / 10 * (u * K i).
Proof.
  intros Hx. pose proof (here_le _ _ _ Hx) as Hk. pose proof Hx as (Hi & _). cbn [moved_geom gnseg] in Hi. rewrite !moved_knot in Hk by lia.
  destruct (knots_near i Hi) as [A B]. apply Rabs_le_between in A, B. pose proof (sh_pos i Hi) as Ph. unfold h in Ph.
  assert (E : T * (x / T - sh) = x - T * sh) by (field; lra). set (y := x / T - sh) in *.
  assert (X1 : knot g i - 32 / 10 * (u * K i) <= y). { apply (Rmult_le_reg_l T); [lra|]. rewrite E. replace (T * (knot g i - 32 / 10 * (u * K i))) with (T * (knot g i + sh) - T * sh - 32 / 10 * (u * (T * K i))) by ring. lra. }
  assert (X2 : y <= knot g (S i) + 32 / 10 * (u * K i)). { apply (Rmult_le_reg_l T); [lra|]. rewrite E. replace (T * (knot g (S i) + 32 / 10 * (u * K i))) with (T * (knot g (S i) + sh) - T * sh + 32 / 10 * (u * (T * K i))) by ring. lra. }
  destruct (sh_le i Hi) as [_ PK]. assert (0 <= u * K i) by (apply Rmult_le_pos; lra).
  unfold nearest, Rmax, Rmin. destruct (Rle_dec _ _); destruct (Rle_dec _ _); apply Rabs_le; lra.
Qed.

Lemma moved_piece old c i x : in_segment moved_geom i x -> (0 < glen g)%nat -> shifted_loss sh g i * u <= 1 ->
  Rabs (piece_rd old rd moved_geom c i (rd (rd (x - gxm_rd rd moved_geom i) * ginv_rd rd moved_geom i))
        - / sqrt T * seg_fun g c i (nearest (knot g i) (knot g (S i)) (x / T - sh))) <= moved_error u eta T sh g c i.
Proof.
  intros Hx Hn Hl. pose proof (here_le _ _ _ Hx) as Hk. pose proof Hx as (Hi & _). cbn [moved_geom gnseg] in Hi. rewrite !moved_knot in Hk by lia.
  destruct (knots_near i Hi) as [A B]. pose proof (dx_near i Hi) as D. pose proof (sh_pos i Hi) as Ph. destruct (proj2 Hfs i Hi) as [F1 F2]. fold (h i) in F1, F2.
  set (a := T * (knot g i + sh)) in *. set (b := T * (knot g (S i) + sh)) in *. assert (Eh : b - a = T * h i) by (unfold a, b, h; ring).
  assert (PT : 0 < T * h i) by (apply Rmult_lt_0_compat; lra). assert (Hab : a < b) by lra.
  assert (EK : T * K i / (T * h i) = K i / h i) by (field; lra).
  pose proof (mpiece_near u eta rd old Hr Hu He a b (f (knot g i)) (f (knot g (S i))) (d' (nth i (gdx g) 0)) Hab) as M.
  unfold a, b in M. rewrite outer_scaled in M. fold a b in M. rewrite !Eh in M.
  specialize (M A B D (conj F1 F2) (glen g) (fun k => cdat c k i) x Hn Hk). rewrite EK in M. specialize (M Hl).
  unfold piece_rd, gnorm_rd, ginv_rd, gxm_rd. change (nth (S i) (gknots moved_geom) 0) with (knot moved_geom (S i)). change (nth i (gknots moved_geom) 0) with (knot moved_geom i).
  rewrite !moved_knot by lia. rewrite moved_dx by lia. cbn [moved_geom glen].
  unfold moved_error, shifted_loss. fold (h i). fold (K i).
  replace (/ sqrt T * seg_fun g c i (nearest (knot g i) (knot g (S i)) (x / T - sh))) with (sqrt (2 / (T * h i)) * legval (glen g) (fun k => cdat c k i) (nearest (-1) 1 (mz a b x))); [exact M|].
  unfold seg_fun. fold (h i). rewrite <- Rmult_assoc. f_equal.
  - rewrite <- sqrt_inv. rewrite <- sqrt_mult; [f_equal; field; lra|left; apply Rinv_0_lt_compat; lra|left; apply Rdiv_lt_0_compat; lra].
  - unfold legval. apply sumn_ext. intros k Hkk. f_equal. f_equal. unfold h. unfold h in Ph. rewrite <- nearest_affine by lra. f_equal. unfold mz. rewrite Eh. unfold a, b, h. field. lra.
Qed.

Lemma moved_call old cols i x : weakly (gknots moved_geom) -> in_segment moved_geom i x -> (0 < glen g)%nat -> shifted_loss sh g i * u <= 1 ->
  exists ys, vcall_rd old rd (VPoly moved_geom cols) x = Ok ys /\
    Forall2 (fun c y => Rabs (y - / sqrt T * seg_fun g c i (nearest (knot g i) (knot g (S i)) (x / T - sh))) <= moved_error u eta T sh g c i) cols ys.
Proof.
  intros W Hx Hn Hl. destruct Hst as ((N0 & L & _) & _). fold g in N0, L.
  destruct (weak_segment moved_geom i x) as [R S]; auto. { cbn [moved_geom gknots gnseg]. rewrite map_length. exact L. }
  unfold vcall_rd. cbn [vgeom vcols]. unfold split_rd. rewrite R. cbn [negb]. cbn [moved_geom gnseg glen]. destruct (gnseg g) as [|m]; [lia|]. cbn [bind fst snd].
  destruct (glen g) as [|m'] eqn:E; [lia|]. fold moved_geom. rewrite S. eexists. split; [reflexivity|].
  induction cols as [|c cs IH]; constructor; auto. apply moved_piece; auto; lia.
Qed.

(** * Success of the constructor *)
Lemma small_consts : eta <= / 10 ^ 12 -> 999 / 1000 * / 10 ^ 8 <= rd (/ 10 ^ 8) /\ 999 / 1000 * / 10 ^ 5 <= rd (/ 10 ^ 5) <= 1.
Proof.
  intros E. pose proof (Hr (/ 10 ^ 8)) as A. pose proof (Hr (/ 10 ^ 5)) as B. rewrite (Rabs_pos_eq (/ 10 ^ 8)) in A by lra. rewrite (Rabs_pos_eq (/ 10 ^ 5)) in B by lra.
  apply Rabs_le_between in A, B.
  assert (u * / 10 ^ 8 <= / 10000 * / 10 ^ 8) by (apply Rmult_le_compat_r; lra). assert (u * / 10 ^ 5 <= / 10000 * / 10 ^ 5) by (apply Rmult_le_compat_r; lra). lra.
Qed.

Lemma tolerated_close i : eta <= / 10 ^ 12 -> tolerated u T sh g -> (i < gnseg g)%nat ->
  f (knot g i) <= f (knot g (S i)) /\ close_rd rd (d' (nth i (gdx g) 0)) (rd (f (knot g (S i)) - f (knot g i))) = true.
Proof.
  intros E Ht Hi. destruct (knots_near i Hi) as [A B]. pose proof (dx_near i Hi) as D. pose proof (sh_pos i Hi) as Ph. destruct (sh_le i Hi) as [HK PK].
  destruct (small_consts E) as [C8 C5]. destruct (proj2 Hfs i Hi) as [F1 _]. fold (h i) in F1.
  set (a' := f (knot g i)) in *. set (b' := f (knot g (S i))) in *. set (dx := d' (nth i (gdx g) 0)) in *.
  set (H := T * h i) in *. set (Q := T * K i) in *. assert (PH : 0 < H) by (apply Rmult_lt_0_compat; lra). assert (PQ : 0 < Q) by (apply Rmult_lt_0_compat; lra).
  assert (HQ : H <= 2 * Q) by (unfold H, Q; assert (T * h i <= T * (2 * K i)) by (apply Rmult_le_compat_l; lra); lra).
  assert (UQ : 0 <= u * Q <= / 10000 * Q) by (split; [apply Rmult_le_pos; lra|apply Rmult_le_compat_r; lra]).
  assert (UH : 0 <= u * H <= u * (2 * Q)) by (split; [apply Rmult_le_pos; lra|apply Rmult_le_compat_l; lra]).
  assert (E1 : Rabs (b' - a' - H) <= 64 / 10 * (u * Q)).
  { replace (b' - a' - H) with ((b' - T * (knot g (S i) + sh)) - (a' - T * (knot g i + sh))) by (unfold H, h; ring). eapply Rle_trans; [apply Rabs_sub|]. lra. }
  assert (Cs : 10 * (u * Q) <= H /\ (2 * 10 ^ 6 * (u * Q) <= H \/ 2 * 10 ^ 9 * (u * Q) <= 1)).
  { destruct (Ht i Hi) as [C|[C1 C2]]; fold (K i) in *; fold (h i) in *.
    - assert (T * (2 * 10 ^ 6 * u * K i) <= T * h i) by (apply Rmult_le_compat_l; lra). assert (X : 2 * 10 ^ 6 * (u * Q) <= H) by (unfold Q, H; lra). split; [lra|left; exact X].
    - assert (T * (10 * u * K i) <= T * h i) by (apply Rmult_le_compat_l; lra). assert (C3 : 2 * 10 ^ 9 * u * (T * K i) <= 1) by exact C2. unfold Q, H. split; [lra|right; lra]. }
  destruct Cs as [C0 C]. apply Rabs_le_between in E1. split; [lra|].
  assert (E2 : Rabs (rd (b' - a') - H) <= 642 / 100 * (u * Q) + 1002 / 1000 * (u * H)).
  { pose proof (Hr (b' - a')) as R1. pose proof (Rabs_triang (rd (b' - a') - (b' - a')) (b' - a' - H)) as Tr. replace (rd (b' - a') - (b' - a') + (b' - a' - H)) with (rd (b' - a') - H) in Tr by ring.
    assert (X : Rabs (b' - a') <= H + 64 / 10 * (u * Q)) by (apply Rabs_le; lra). assert (u * Rabs (b' - a') <= u * (H + 64 / 10 * (u * Q))) by (apply Rmult_le_compat_l; lra).
    assert (u * (64 / 10 * (u * Q)) <= / 10000 * (64 / 10 * (u * Q))) by (apply Rmult_le_compat_r; lra). assert (Rabs (b' - a' - H) <= 64 / 10 * (u * Q)) by (apply Rabs_le; lra). lra. }
  set (D' := rd (b' - a')) in *. unfold close_rd. apply Rleb_true.
  assert (E3 : Rabs (dx - D') <= 149 / 10 * (u * Q)).
  { replace (dx - D') with ((dx - H) - (D' - H)) by ring. eapply Rle_trans; [apply Rabs_sub|]. lra. }
  assert (L : Rabs (rd (dx - D')) <= 15 * (u * Q)).
  { pose proof (Hr (dx - D')) as R1. pose proof (Rabs_triang_inv (rd (dx - D')) (dx - D')) as I. assert (u * Rabs (dx - D') <= / 10000 * (149 / 10 * (u * Q))) by (apply Rmult_le_compat; auto using Rabs_pos; lra). lra. }
  eapply Rle_trans; [exact L|].
  assert (PD : 0 <= Rabs D') by apply Rabs_pos. set (r5 := rd (/ 10 ^ 5)) in *. set (r8 := rd (/ 10 ^ 8)) in *.
  assert (M0 : 999 / 1000 * / 10 ^ 5 * Rabs D' <= r5 * Rabs D') by (apply Rmult_le_compat_r; lra).
  assert (M1 : 998 / 1000 * / 10 ^ 5 * Rabs D' - eta <= rd (r5 * Rabs D')).
  { pose proof (Hr (r5 * Rabs D')) as R1. rewrite (Rabs_pos_eq (r5 * Rabs D')) in R1 by (apply Rmult_le_pos; lra). apply Rabs_le_between in R1.
    assert (u * (r5 * Rabs D') <= / 10000 * (r5 * Rabs D')) by (apply Rmult_le_compat_r; [apply Rmult_le_pos; lra|lra]). lra. }
  assert (M2 : 0 <= rd (r5 * Rabs D')) by (apply (proj1 (proj2 Hrd)); apply Rmult_le_pos; lra).
  set (q := rd (r5 * Rabs D')) in *.
  assert (M3 : 999 / 1000 * (r8 + q) - eta <= rd (r8 + q)).
  { pose proof (Hr (r8 + q)) as R1. rewrite (Rabs_pos_eq (r8 + q)) in R1 by lra. apply Rabs_le_between in R1. assert (u * (r8 + q) <= / 10000 * (r8 + q)) by (apply Rmult_le_compat_r; lra). lra. }
  destruct C as [C|C]; [|lra]. apply Rabs_le_between in E2.
  assert (X : 999 / 1000 * H <= D') by lra. rewrite (Rabs_pos_eq D') in M1 by lra. lra.
Qed.

Lemma rescaled_ok : eta <= / 10 ^ 12 -> tolerated u T sh g -> rescaled_rd rd p f T' = Ok (VPoly moved_geom (vcols p)).
Proof.
  intros E Ht. pose proof Hst as ((N0 & L & _ & Ld & _) & _). fold g in N0, L, Ld. unfold rescaled_rd, poly_given_rd. fold g. fold d'. rewrite !map_length, L, Ld, !Nat.eqb_refl. cbn [negb].
  assert (W : forallb (fun b => b) (map2 (fun a b => Rleb a b) (init (map f (gknots g))) (tl (map f (gknots g)))) = true).
  { apply (proj2 (forallb_map2_le Rleb _)). intros i Hi. rewrite map_length in Hi. apply Rleb_true.
    change (knot moved_geom i <= knot moved_geom (S i)). rewrite !moved_knot by lia. apply tolerated_close; auto. lia. }
  rewrite W. cbn [negb].
  assert (A : allclose_rd rd (map d' (gdx g)) (map rd (diffs (map f (gknots g)))) = true).
  { unfold allclose_rd. apply forallb_forall. intros b Hb. apply (In_nth _ _ true) in Hb. destruct Hb as (i & Hi & <-).
    rewrite map2_length, !map_length, diffs_length, map_length, Ld, L in Hi.
    rewrite (map2_nth _ _ _ _ 0 0 true) by (rewrite ?map_length, ?diffs_length, ?map_length; lia).
    change (nth i (map d' (gdx g)) 0) with (nth i (gdx moved_geom) 0). rewrite moved_dx by lia.
    rewrite (nth_indep (map rd _) 0 (rd 0)) by (rewrite map_length, diffs_length, map_length; lia). rewrite map_nth, diffs_nth by (rewrite map_length; lia).
    change (close_rd rd (d' (nth i (gdx g) 0)) (rd (knot moved_geom (S i) - knot moved_geom i)) = true). rewrite !moved_knot by lia. apply tolerated_close; auto. lia. }
  rewrite A. cbn [andb negb]. f_equal. unfold moved_geom. f_equal.  apply map2_cols.
Qed.

Lemma rescaled_inv p' : rescaled_rd rd p f T' = Ok p' -> p' = VPoly moved_geom (vcols p) /\ weakly (gknots moved_geom).
Proof.
  intros H. unfold rescaled_rd in H. apply poly_given_inv in H. destruct H as (-> & _ & W & _ & _). rewrite map2_cols. split; [reflexivity|exact W].
Qed.
End MovedSet.
