(** The merged expansion as a whole. *)
From Coq Require Import String ZArith Arith Bool Reals Lra Lia Psatz.
From Coquelicot Require Import Coquelicot.
From Coq Require Import List Sorting.Sorted Sorting.Permutation.
From Verif.Model Require Import Base Num Gauss Poly SVE Compute.
From Verif.Spec Require Import SGauss SPoly SFT SSVE SBasis SKernel SCompute.
From Verif.Proofs Require Import BaseFacts SumFacts IntFacts LegFacts GaussFacts PPolyFacts PPolyInt BasisPhys ComputeNodes ComputePost ComputeMerge.
Import ListNotations.
Open Scope R_scope.
Notation length := List.length.
Arguments legP : simpl never.

Lemma geom_same g g' : geom_ok g -> geom_ok g' -> gknots g = gknots g' -> glen g = glen g' -> gorder g = gorder g' -> g = g'.
Proof.
  intros (H1 & H2 & H3 & H4 & H5) (H1' & H2' & H3' & H4' & H5') Ek El Eo.
  destruct g as [o l n k d], g' as [o' l' n' k' d']. cbn in *. subst k' l' o'.
  assert (En : n = n') by congruence. rewrite <- En in *. clear En. f_equal. apply (nth_ext _ _ 0 0); [congruence|].
  intros i Hi. rewrite H4 in Hi. rewrite H5, H5' by auto. reflexivity.
Qed.

Lemma sorted_app_lt a b : StronglySorted Rlt a -> StronglySorted Rlt b ->
  (forall x y, In x a -> In y b -> x < y) -> StronglySorted Rlt (a ++ b).
Proof.
  induction a as [|x a IH]; intros Ha Hb Hab; cbn; auto. inversion Ha; subst. constructor.
  - apply IH; auto. intros; apply Hab; auto. now right.
  - apply Forall_app. split; auto. apply Forall_forall. intros y Hy. apply Hab; auto. now left.
Qed.
Lemma sorted_opp_rev a : StronglySorted Rlt a -> StronglySorted Rlt (map Ropp (rev a)).
Proof.
  induction a as [|x a IH]; intros Ha; [constructor|]. inversion Ha as [|? ? Hs Hf]; subst. cbn [rev]. rewrite map_app. cbn [map].
  apply sorted_app_lt; auto. { repeat constructor. }
  intros u v Hu [<-|[]]. apply in_map_iff in Hu as (w & <- & Hw). apply in_rev in Hw. rewrite Forall_forall in Hf. apply Hf in Hw. lra.
Qed.
Lemma mirrored_sorted h : half_edges h -> StronglySorted Rlt (mirrored h).
Proof.
  intros ([Hl Hs] & H0 & _). destruct h as [|a h]; [cbn in Hl; lia|]. injection H0 as ->. unfold mirrored. cbn [tl].
  inversion Hs as [|? ? Hs' Hf]; subst. apply sorted_app_lt; auto using sorted_opp_rev.
  intros u v Hu Hv. apply in_map_iff in Hu as (w & <- & Hw). apply in_rev in Hw. rewrite Forall_forall in Hf. apply Hf in Hw.
  destruct Hv as [<-|Hv]; [lra|]. apply Hf in Hv. lra.
Qed.
Lemma mirrored_length h : half_edges h -> length (mirrored h) = S (2 * (length h - 1)).
Proof.
  intros ([Hl _] & _). unfold mirrored. rewrite app_length, map_length, rev_length. destruct h; cbn [List.length tl] in *; lia.
Qed.

Lemma rsum_perm l l' : Permutation l l' -> rsum l = rsum l'.
Proof. induction 1; rewrite ?rsum_cons; auto; lra. Qed.
Lemma sumn_perm n idx (F : nat -> R) : Permutation idx (seq 0 n) -> sumn n (fun l => F (nth l idx 0%nat)) = sumn n F.
Proof.
  intros H. assert (Hl : length idx = n) by (rewrite (Permutation_length H); apply seq_length).
  pose proof (rsum_perm _ _ (Permutation_map F H)) as E. rewrite !rsum_nth, !map_length, seq_length, Hl in E.
  rewrite (sumn_ext n _ (fun i => nth i (map F idx) 0)), E.
  - apply sumn_ext. intros i Hi. rewrite (nth_map_in _ _ _ 0%nat) by (rewrite seq_length; lia). rewrite seq_nth by auto. reflexivity.
  - intros i Hi. rewrite (nth_map_in _ _ _ 0%nat) by lia. reflexivity.
Qed.

Lemma sorted_rev l : StronglySorted Rle l -> nonincreasing (rev l).
Proof.
  unfold nonincreasing. induction l as [|a l IH]; intros H; cbn [rev]; [constructor|].
  inversion H as [|? ? Hs Hf]; subst. specialize (IH Hs). clear H Hs.
  assert (Hf' : Forall (fun b => a <= b) (rev l)) by (apply Forall_forall; intros x Hx; apply in_rev in Hx; rewrite Forall_forall in Hf; auto).
  revert IH Hf'. generalize (rev l). induction l0 as [|b m IHm]; intros H1 H2; cbn; [repeat constructor|].
  inversion H1; inversion H2; subst. constructor; auto. apply Forall_app. split; auto.
Qed.

(** Uniform bounds pass to the end of an interval. *)
Lemma bound_limit (f : R -> R) (a b e : R) : a < b -> continuous f b -> (forall t, a < t < b -> Rabs (f t) <= e) -> Rabs (f b) <= e.
Proof.
  intros Hab Hc H. destruct (Rle_or_lt (Rabs (f b)) e) as [|Hlt]; auto. exfalso.
  assert (Hp : 0 < Rabs (f b) - e) by lra.
  destruct (proj1 (filterlim_locally f (f b)) Hc (mkposreal _ Hp)) as [d Hd]. cbn in Hd.
  set (t := Rmax ((a + b) / 2) (b - d / 2)). pose proof (cond_pos d).
  assert (Ht : a < t < b).
  { unfold t. split; [eapply Rlt_le_trans; [|apply Rmax_l]; lra|apply Rmax_lub_lt; lra]. }
  assert (Ht' : b - d / 2 <= t) by apply Rmax_r.
  specialize (Hd t). specialize (H t Ht).
  assert (Hb : ball b d t).
  { unfold ball; cbn; unfold AbsRing_ball, abs, minus, plus, opp; cbn. apply Rabs_def1; lra. }
  apply Hd in Hb. unfold ball in Hb; cbn in Hb; unfold AbsRing_ball, abs, minus, plus, opp in Hb; cbn in Hb.
  pose proof (Rabs_triang_inv (f b) (f t)). rewrite <- Rabs_Ropp in Hb. replace (- (f t + - f b)) with (f b - f t) in Hb by ring. lra.
Qed.

Lemma seg_fun_cont g c i x : continuous (seg_fun g c i) x.
Proof.
  unfold seg_fun. apply continuous_scal2, continuous_sumn. intros k _. apply continuous_scal2.
  apply (continuous_comp (fun t => (2 * t - knot g i - knot g (S i)) / (knot g (S i) - knot g i)) (legP k)); [|apply continuous_legP].
  apply (ex_derive_continuous (K := R_AbsRing) (V := R_NormedModule)). auto_derive; auto.
Qed.

(** The pieces of an expansion on one rectangle. *)
Definition piece (r : sve_result) (j k : nat) (x y : R) : R :=
  sumn (length (ss r)) (fun l => nth l (ss r) 0 * seg_fun (vgeom (su r)) (nth l (vcols (su r)) col0) j x *
                                  seg_fun (vgeom (sv r)) (nth l (vcols (sv r)) col0) k y).

Lemma piece_cont_x r j k y x : continuous (fun t => piece r j k t y) x.
Proof.
  apply continuous_sumn. intros l _. apply (continuous_ext (fun t => (nth l (ss r) 0 * seg_fun (vgeom (sv r)) (nth l (vcols (sv r)) col0) k y) * seg_fun (vgeom (su r)) (nth l (vcols (su r)) col0) j t)).
  { intros t. toR. ring. } apply continuous_scal2, seg_fun_cont.
Qed.
Lemma piece_cont_y r j k x y : continuous (fun t => piece r j k x t) y.
Proof. apply continuous_sumn. intros l _. apply continuous_scal2, seg_fun_cont. Qed.


Lemma half_range p n h : fresh p -> gknots (vgeom p) = h -> half_edges h -> glen (vgeom p) = n ->
  gxmin (vgeom p) = 0 /\ gxmax (vgeom p) = 1 /\ knot (vgeom p) 0 = 0.
Proof.
  intros (Hg & _) Hk (_ & H0 & H1) _. unfold gxmin, gxmax, knot. rewrite Hk.
  destruct h as [|a h]; [discriminate|]. injection H0 as ->. split; [reflexivity|]. split; [|reflexivity].
  unfold gxmax. rewrite <- (rev_involutive (0 :: h)) at 1. destruct (rev (0 :: h)) as [|b t] eqn:E; [discriminate|]. injection H1 as ->.
  cbn [rev]. destruct Hg as (_ & Hl & _). rewrite Hk in Hl.
  assert (E' : length (0 :: h) = S (length t)) by (rewrite <- (rev_length (0 :: h)), E; reflexivity).
  rewrite app_nth2; rewrite rev_length; [|lia]. replace (gnseg (vgeom p) - length t)%nat with 0%nat by lia. reflexivity.
Qed.

(** A point is regular on segment i if the i-th piece is the function there. *)
Definition regular (g : geom) (i : nat) (x : R) : Prop := forall c, seg_fun g c i x = cval g c x.
Lemma regular_inside g i x : geom_ok g -> (i < gnseg g)%nat -> knot g i < x < knot g (S i) -> regular g i x.
Proof. intros Hg Hi Hx c. symmetry. apply cval_seg; auto; [lra|left; lra]. Qed.

Section Close.
Variables (n : nat) (hx hy : list R) (r : sve_result) (k : R -> R -> R) (e : R).
Hypothesis Hhx : half_edges hx.
Hypothesis Hhy : half_edges hy.
Hypothesis Hr : sve_on n hx hy r.
Notation gu := (vgeom (su r)).
Notation gv := (vgeom (sv r)).

Lemma seg_range_x i x : (i < gnseg gu)%nat -> knot gu i <= x <= knot gu (S i) -> 0 <= x <= 1.
Proof.
  intros Hi Hx. destruct Hr as (Fu & _ & Ku & _ & Gu & _). destruct (half_range _ _ _ Fu Ku Hhx Gu) as (E1 & E2 & E3).
  destruct Fu as (Hg & _). rewrite xmin_knot in E1. rewrite xmax_knot in E2.
  pose proof (knot_le gu Hg 0 i ltac:(lia)). pose proof (knot_le gu Hg (S i) (gnseg gu) ltac:(lia)). lra.
Qed.
Lemma seg_range_y i x : (i < gnseg gv)%nat -> knot gv i <= x <= knot gv (S i) -> 0 <= x <= 1.
Proof.
  intros Hi Hx. destruct Hr as (_ & Fu & _ & Ku & _ & Gu & _). destruct (half_range _ _ _ Fu Ku Hhy Gu) as (E1 & E2 & E3).
  destruct Fu as (Hg & _). rewrite xmin_knot in E1. rewrite xmax_knot in E2.
  pose proof (knot_le gv Hg 0 i ltac:(lia)). pose proof (knot_le gv Hg (S i) (gnseg gv) ltac:(lia)). lra.
Qed.

Lemma piece_at i j x y : 0 <= x <= 1 -> 0 <= y <= 1 -> within_at e r k x y -> regular gu i x -> regular gv j y -> Rabs (piece r i j x y - k x y) <= e.
Proof.
  intros Hx Hy (v & Ev & Hv) Rx Ry. destruct Hr as (Fu & Fv & Ku & Kv & Gu & Gv & L1 & L2).
  destruct (half_range _ _ _ Fu Ku Hhx Gu) as (E1 & E2 & _). destruct (half_range _ _ _ Fv Kv Hhy Gv) as (E3 & E4 & _).
  rewrite sve_sum_ok in Ev by (auto; lra). injection Ev as <-.
  replace (piece r i j x y) with (expand r x y); auto. unfold expand, piece. apply sumn_ext. intros l _. rewrite Rx, Ry. reflexivity.
Qed.

Hypothesis Hw : forall x y, 0 <= x <= 1 -> 0 <= y <= 1 -> within_at e r k x y.

Lemma piece_regular i j x y : 0 <= x <= 1 -> 0 <= y <= 1 -> regular gu i x -> regular gv j y -> Rabs (piece r i j x y - k x y) <= e.
Proof.
  intros Hx Hy Rx Ry. apply piece_at; auto.
Qed.

Hypothesis Hc : forall x y, 0 <= x <= 1 -> 0 <= y <= 1 -> continuous (fun t => k t y) x /\ continuous (fun t => k x t) y.

Lemma piece_closed i j x y : (i < gnseg gu)%nat -> (j < gnseg gv)%nat ->
  knot gu i <= x <= knot gu (S i) -> knot gv j <= y <= knot gv (S j) ->
  regular gu i x \/ x = knot gu (S i) -> regular gv j y \/ y = knot gv (S j) -> Rabs (piece r i j x y - k x y) <= e.
Proof.
  intros Hi Hj Hx Hy Cx Cy.
  assert (Hgu : geom_ok gu) by apply Hr. assert (Hgv : geom_ok gv) by apply Hr.
  assert (HY : forall x, 0 <= x <= 1 -> regular gu i x -> Rabs (piece r i j x y - k x y) <= e).
  { intros x' Hx' Rx'. pose proof (seg_range_y j y Hj Hy) as Hy01. destruct Cy as [Ry| ->]; [apply piece_regular; auto|].
    apply (bound_limit (fun t => piece r i j x' t - k x' t) (knot gv j)); [apply knot_lt; auto| |].
    - apply (continuous_minus (V := R_NormedModule)); [apply piece_cont_y|]. apply Hc; auto.
    - intros t Ht. apply piece_regular; auto using regular_inside. apply (seg_range_y j); auto. lra. }
  pose proof (seg_range_x i x Hi Hx) as Hx01. destruct Cx as [Rx| ->]; [auto|].
  apply (bound_limit (fun t => piece r i j t y - k t y) (knot gu i)); [apply knot_lt; auto| |].
  - apply (continuous_minus (V := R_NormedModule)); [apply piece_cont_x|]. apply Hc; auto. eapply seg_range_y; eauto.
  - intros t Ht. apply HY; auto using regular_inside. apply (seg_range_x i); auto. lra.
Qed.
End Close.

Lemma poly_init_some_cols order nseg dat knots sy p : poly_init order nseg dat knots None (Some sy) = Ok p ->
  vcols p = map2 Col dat sy.
Proof.
  unfold poly_init. destruct (negb _); [discriminate|]. destruct (negb _); [discriminate|].
  destruct (Nat.eqb _ _); [|discriminate]. cbn [bind]. intros [= <-]. reflexivity.
Qed.
Lemma map2_map_same {A B C D} (f : B -> C -> D) (g : A -> B) (h : A -> C) l : map2 f (map g l) (map h l) = map (fun a => f (g a) (h a)) l.
Proof. induction l; cbn; congruence. Qed.

(** * The merged result *)
Section Merge.
Variables (argsort : list R -> list nat) (eps : R) (n : nat) (hx hy : list R) (even odd : sve_result).
Hypothesis Hhx : half_edges hx.
Hypothesis Hhy : half_edges hy.
Hypothesis He : sve_on n hx hy even.
Hypothesis Ho : sve_on n hx hy odd.
Notation s := (ss even ++ ss odd).
Hypothesis Hsort : sorts s (argsort s).
Notation ne := (length (ss even)).
Notation no := (length (ss odd)).
Notation sort := (rev (argsort s)).
Notation gu := (vgeom (su even)).
Notation gv := (vgeom (sv even)).

Lemma same_geoms : vgeom (su odd) = gu /\ vgeom (sv odd) = gv.
Proof.
  destruct He as ((A1 & A2 & A3) & (B1 & B2 & B3) & E1 & E2 & E3 & E4 & _). destruct Ho as ((A1' & A2' & A3') & (B1' & B2' & B3') & E1' & E2' & E3' & E4' & _).
  split; apply geom_same; auto; congruence.
Qed.

Definition sgn (i : nat) : R := if (i <? ne)%nat then 1 else -1.
Definition mu (i : nat) : col := nth i (vcols (su even) ++ vcols (su odd)) col0.
Definition mv (i : nat) : col := nth i (vcols (sv even) ++ vcols (sv odd)) col0.

Lemma sort_perm : Permutation sort (seq 0 (ne + no)).
Proof. destruct Hsort as [H _]. rewrite app_length in H. etransitivity; [symmetry; apply Permutation_rev|]. auto. Qed.
Lemma sort_len : length sort = (ne + no)%nat.
Proof. rewrite (Permutation_length sort_perm). apply seq_length. Qed.
Lemma sort_lt l : (l < ne + no)%nat -> (nth l sort 0 < ne + no)%nat.
Proof.
  intros Hl. assert (H : In (nth l sort 0%nat) sort) by (apply nth_In; rewrite sort_len; auto).
  eapply Permutation_in in H; [|apply sort_perm]. apply in_seq in H. lia.
Qed.

Lemma merge_ok : exists r G H, merge argsort eps (mirrored hx) (mirrored hy) even odd = Ok r /\
  vgeom (su r) = G /\ vgeom (sv r) = H /\ fresh (su r) /\ fresh (sv r) /\
  gknots G = mirrored hx /\ gknots H = mirrored hy /\ glen G = n /\ glen H = n /\ seps r = Some eps /\
  ss r = map (fun i => nth i s 0) sort /\
  vcols (su r) = map (fun i => mcol gu (sgn i) (sgn i) (mu i)) sort /\
  vcols (sv r) = map (fun i => mcol gv (sgn i) (sgn i) (mv i)) sort.
Proof.
  destruct He as ((A1 & A2 & A3) & (B1 & B2 & B3) & E1 & E2 & E3 & E4 & L1 & L2).
  destruct Ho as (_ & _ & _ & _ & _ & _ & L1' & L2').
  assert (N1 : length hx = S (gnseg gu)) by (rewrite <- E1; apply A1).
  assert (N2 : length hy = S (gnseg gv)) by (rewrite <- E2; apply B1).
  set (signs := take_idx 0 (map (fun _ => 1) (ss even) ++ map (fun _ => -1) (ss odd)) sort).
  assert (Esg : signs = map sgn sort).
  { unfold signs, take_idx. apply map_ext_in. intros i Hi. eapply Permutation_in in Hi; [|apply sort_perm]. apply in_seq in Hi.
    unfold sgn. destruct (Nat.ltb_spec i ne).
    - rewrite app_nth1 by (rewrite map_length; auto). rewrite (nth_map_in _ _ _ 0) by auto. reflexivity.
    - rewrite app_nth2 by (rewrite map_length; auto). rewrite map_length, (nth_map_in _ _ _ 0) by lia. reflexivity. }
  assert (Hkn : forall h, half_edges h -> forall i, (i < 2 * (length h - 1))%nat -> nth i (mirrored h) 0 <= nth (S i) (mirrored h) 0).
  { intros h Hh i Hi. left. apply PPolyFacts.sorted_nth_lt; [apply mirrored_sorted; auto|]. rewrite mirrored_length by auto. lia. }
  unfold merge. fold signs.
  destruct (poly_init_some (glen gu) (2 * gnseg gu) (map2 (mirror_col (gnseg gu)) signs (take_idx col0 (vcols (su even) ++ vcols (su odd)) sort)) (mirrored hx) (Some signs)) as (u & Eu & Lu).
  { rewrite mirrored_length by auto. lia. } { intros i Hi. apply Hkn; auto. lia. }
  { rewrite map2_length. unfold signs, take_idx. rewrite !map_length. lia. }
  destruct (poly_init_some (glen gv) (2 * gnseg gv) (map2 (mirror_col (gnseg gv)) signs (take_idx col0 (vcols (sv even) ++ vcols (sv odd)) sort)) (mirrored hy) (Some signs)) as (v & Ev & Lv).
  { rewrite mirrored_length by auto. lia. } { intros i Hi. apply Hkn; auto. lia. }
  { rewrite map2_length. unfold signs, take_idx. rewrite !map_length. lia. }
  unfold col0 in Eu, Ev. rewrite Eu. cbn [bind]. rewrite Ev. cbn [bind].
  pose proof (g_nseg _ A1) as P1. pose proof (g_nseg _ B1) as P2.
  destruct (poly_init_ok _ _ _ _ _ _ Eu ltac:(lia) (mirrored_sorted _ Hhx)) as (G1 & G2 & G3 & G4).
  destruct (poly_init_ok _ _ _ _ _ _ Ev ltac:(lia) (mirrored_sorted _ Hhy)) as (J1 & J2 & J3 & J4).
  eexists _, (vgeom u), (vgeom v). split; [reflexivity|]. cbn [su sv ss seps].
  repeat (split; [first [reflexivity|congruence|split; [auto|split; congruence || lia]|idtac]|]).
  { rewrite (poly_init_some_cols _ _ _ _ _ _ Eu), Esg. unfold take_idx. rewrite !map2_map_same. reflexivity. }
  { rewrite (poly_init_some_cols _ _ _ _ _ _ Ev), Esg. unfold take_idx. rewrite !map2_map_same. reflexivity. }
Qed.

Variable r : sve_result.
Hypothesis Hm : merge argsort eps (mirrored hx) (mirrored hy) even odd = Ok r.
Notation G := (vgeom (su r)).
Notation H := (vgeom (sv r)).

Lemma merged : fresh (su r) /\ fresh (sv r) /\
  gknots G = mirrored (gknots gu) /\ gknots H = mirrored (gknots gv) /\ glen G = glen gu /\ glen H = glen gv /\ seps r = Some eps /\
  ss r = map (fun i => nth i s 0) sort /\
  vcols (su r) = map (fun i => mcol gu (sgn i) (sgn i) (mu i)) sort /\
  vcols (sv r) = map (fun i => mcol gv (sgn i) (sgn i) (mv i)) sort.
Proof.
  destruct merge_ok as (r' & G' & H' & E & <- & <- & F1 & F2 & K1 & K2 & L1 & L2 & R). rewrite Hm in E. injection E as <-.
  destruct He as (_ & _ & E1 & E2 & E3 & E4 & _). rewrite E1, E2, E3, E4. tauto.
Qed.

Lemma lens : length (ss r) = (ne + no)%nat /\ length (vcols (su r)) = (ne + no)%nat /\ length (vcols (sv r)) = (ne + no)%nat.
Proof. destruct merged as (_ & _ & _ & _ & _ & _ & _ & E1 & E2 & E3). rewrite E1, E2, E3, !map_length, sort_len. auto. Qed.

Lemma zero_u : knot gu 0 = 0 /\ gxmin gu = 0 /\ gxmax gu = 1.
Proof. destruct He as (Fu & _ & Ku & _ & Gu & _). destruct (half_range _ _ _ Fu Ku Hhx Gu) as (A & B & C). auto. Qed.
Lemma zero_v : knot gv 0 = 0 /\ gxmin gv = 0 /\ gxmax gv = 1.
Proof. destruct He as (_ & Fu & _ & Ku & _ & Gu & _). destruct (half_range _ _ _ Fu Ku Hhy Gu) as (A & B & C). auto. Qed.
Lemma okgu : geom_ok gu. Proof. apply He. Qed.
Lemma okgv : geom_ok gv. Proof. apply He. Qed.
Lemma okG : geom_ok G. Proof. apply merged. Qed.
Lemma okH : geom_ok H. Proof. apply merged. Qed.
Lemma range_u : gxmin G = -1 /\ gxmax G = 1.
Proof.
  destruct merged as (_ & _ & K & _ & L & _). destruct zero_u as (Z & Zm & ZM).
  destruct (G_range gu G okgu okG Z K L) as (A & B & _). rewrite A, B, ZM. auto.
Qed.
Lemma range_v : gxmin H = -1 /\ gxmax H = 1.
Proof.
  destruct merged as (_ & _ & _ & K & _ & L & _). destruct zero_v as (Z & Zm & ZM).
  destruct (G_range gv H okgv okH Z K L) as (A & B & _). rewrite A, B, ZM. auto.
Qed.

Lemma sgn_sqr i : sgn i * sgn i = 1.
Proof. unfold sgn. destruct (_ <? _)%nat; ring. Qed.

Lemma col_u l : (l < ne + no)%nat -> nth l (vcols (su r)) col0 = let i := nth l sort 0%nat in mcol gu (sgn i) (sgn i) (mu i).
Proof.
  intros Hl. destruct merged as (_ & _ & _ & _ & _ & _ & _ & _ & E & _). rewrite E.
  rewrite (nth_map_in _ _ _ 0%nat) by (rewrite sort_len; auto). reflexivity.
Qed.
Lemma col_v l : (l < ne + no)%nat -> nth l (vcols (sv r)) col0 = let i := nth l sort 0%nat in mcol gv (sgn i) (sgn i) (mv i).
Proof.
  intros Hl. destruct merged as (_ & _ & _ & _ & _ & _ & _ & _ & _ & E). rewrite E.
  rewrite (nth_map_in _ _ _ 0%nat) by (rewrite sort_len; auto). reflexivity.
Qed.

Lemma merged_sorted : nonincreasing (ss r) /\ Permutation (ss r) s.
Proof.
  destruct merged as (_ & _ & _ & _ & _ & _ & _ & E & _). rewrite E. split.
  - rewrite map_rev. apply sorted_rev, Hsort.
  - rewrite (Permutation_map _ sort_perm), <- app_length.
    replace (map (fun i => nth i s 0) (seq 0 (length s))) with s; [reflexivity|].
    apply (nth_ext _ _ 0 0); [rewrite map_length, seq_length; auto|].
    intros i Hi. rewrite (nth_map_in _ _ _ 0%nat) by (rewrite seq_length; auto). rewrite seq_nth by auto. reflexivity.
Qed.

Lemma merged_parity l p q : nth_error (vcols (su r)) l = Some p -> nth_error (vcols (sv r)) l = Some q ->
  (csym p = 1 \/ csym p = -1) /\ csym q = csym p /\ has_parity G p (csym p) /\ has_parity H q (csym q).
Proof.
  intros Hp Hq. assert (Hl : (l < ne + no)%nat) by (destruct lens as (_ & <- & _); apply nth_error_Some; congruence).
  apply (nth_error_nth _ _ col0) in Hp, Hq. rewrite col_u in Hp by auto. rewrite col_v in Hq by auto. cbv zeta in Hp, Hq. subst p q. cbn [csym mcol].
  split; [unfold sgn; destruct (_ <? _)%nat; auto|]. split; [reflexivity|].
  destruct merged as (_ & _ & K1 & K2 & L1 & L2 & _).
  split; apply mirror_parity; auto using okgu, okgv, okG, okH, sgn_sqr; [apply zero_u|apply zero_v].
Qed.

Lemma merged_sum x y i j :
  (forall sg sy c, cval G (mcol gu sg sy c) x = (if Rltb x 0 then sg else 1) * (1 / sqrt 2) * seg_fun gu c i (Rabs x)) ->
  (forall sg sy c, cval H (mcol gv sg sy c) y = (if Rltb y 0 then sg else 1) * (1 / sqrt 2) * seg_fun gv c j (Rabs y)) ->
  expand r x y = / 2 * (piece even i j (Rabs x) (Rabs y) +
    (if Rltb x 0 then -1 else 1) * (if Rltb y 0 then -1 else 1) * piece odd i j (Rabs x) (Rabs y)).
Proof.
  intros Ex Ey. unfold expand. destruct lens as (-> & _ & _). destruct same_geoms as [Gu Gv].
  destruct He as (_ & _ & _ & _ & _ & _ & L1 & L2). destruct Ho as (_ & _ & _ & _ & _ & _ & L1' & L2').
  set (tx := if Rltb x 0 then -1 else 1). set (ty := if Rltb y 0 then -1 else 1).
  pose (F := fun i => nth i s 0 * cval G (mcol gu (sgn i) (sgn i) (mu i)) x * cval H (mcol gv (sgn i) (sgn i) (mv i)) y).
  rewrite (sumn_ext _ _ (fun l => F (nth l sort 0%nat))).
  2:{ intros l Hl. rewrite col_u, col_v by auto. unfold F. cbv zeta beta. f_equal. f_equal.
      destruct merged as (_ & _ & _ & _ & _ & _ & _ & -> & _). rewrite (nth_map_in _ _ _ 0%nat) by (rewrite sort_len; auto). reflexivity. }
  rewrite (sumn_perm _ _ F sort_perm), sumn_app. unfold F. rewrite Rmult_plus_distr_l. f_equal.
  - unfold piece. rewrite <- sumn_scal. apply sumn_ext. intros l Hl. rewrite Ex, Ey. unfold sgn, mu, mv.
    rewrite (proj2 (Nat.ltb_lt _ _) Hl), !app_nth1 by lia.
    rewrite <- inv_sqrt2. destruct (Rltb x 0), (Rltb y 0); ring.
  - unfold piece. rewrite Gu, Gv. rewrite <- !sumn_scal. apply sumn_ext. intros l Hl. rewrite Ex, Ey. unfold sgn, mu, mv.
    rewrite (proj2 (Nat.ltb_ge _ _)) by lia. rewrite !app_nth2 by lia. rewrite L1, L2.
    replace (ne + l - ne)%nat with l by lia. rewrite <- inv_sqrt2. unfold tx, ty. destruct (Rltb x 0), (Rltb y 0); ring.
Qed.

(** Orthonormality. *)
Lemma in_cols p l f x : geom_ok (vgeom p) -> gxmin (vgeom p) <= x <= gxmax (vgeom p) -> represents p l f -> (l < length (vcols p))%nat.
Proof.
  intros Hg Hx Hf. destruct (nth_error (vcols p) l) eqn:E'; [apply nth_error_Some; congruence|].
  specialize (Hf x Hx). unfold value in Hf. rewrite split_ok in Hf by auto. cbn [bind] in Hf.
  rewrite BasisPhys.pyindex_nat, E' in Hf. discriminate.
Qed.

Lemma cols_inner p : fresh p -> (gxmin (vgeom p) <= gxmax (vgeom p)) -> orthonormal_functions p <->
  (forall l m, (l < length (vcols p))%nat -> (m < length (vcols p))%nat ->
   is_RInt (fun x => cval (vgeom p) (nth l (vcols p) col0) x * cval (vgeom p) (nth m (vcols p) col0) x) (gxmin (vgeom p)) (gxmax (vgeom p)) (if Nat.eqb l m then 1 else 0)).
Proof.
  intros (Hg & Hog & Hlg) Hr. split.
  - intros HO l m Hl Hm'. apply (HO l m); intros x Hx; apply value_cval; auto; try lia; apply nth_error_nth'; auto.
  - intros HO l m f h Hf Hh.
    pose proof (in_cols _ _ _ (gxmin (vgeom p)) Hg ltac:(lra) Hf) as Hl. pose proof (in_cols _ _ _ (gxmin (vgeom p)) Hg ltac:(lra) Hh) as Hm'.
    apply represents_cval in Hf as (c & Ec & Hc); auto; try lia. apply represents_cval in Hh as (d & Ed & Hd); auto; try lia.
    apply (nth_error_nth _ _ col0) in Ec, Ed. subst c d.
    eapply is_RInt_ext_in; [exact Hr| |apply (HO l m); auto]. intros x Hx. cbv beta. rewrite Hc, Hd by lra. reflexivity.
Qed.

Lemma sort_inj a b : (a < ne + no)%nat -> (b < ne + no)%nat -> nth a sort 0%nat = nth b sort 0%nat -> a = b.
Proof.
  intros Ha Hb E. assert (ND : NoDup sort) by (apply (Permutation_NoDup (Permutation_sym sort_perm)), seq_NoDup).
  apply (proj1 (NoDup_nth sort 0%nat) ND); rewrite ?sort_len; auto.
Qed.

Lemma merged_ortho_gen g G' ce co (p : vpoly) :
  geom_ok g -> geom_ok G' -> knot g 0 = 0 -> gknots G' = mirrored (gknots g) -> glen G' = glen g ->
  fresh p -> vgeom p = G' -> gxmin G' <= gxmax G' -> length ce = ne -> length co = no ->
  vcols p = map (fun i => mcol g (sgn i) (sgn i) (nth i (ce ++ co) col0)) sort ->
  (forall l m, (l < ne)%nat -> (m < ne)%nat -> is_RInt (fun x => cval g (nth l ce col0) x * cval g (nth m ce col0) x) (gxmin g) (gxmax g) (if Nat.eqb l m then 1 else 0)) ->
  (forall l m, (l < no)%nat -> (m < no)%nat -> is_RInt (fun x => cval g (nth l co col0) x * cval g (nth m co col0) x) (gxmin g) (gxmax g) (if Nat.eqb l m then 1 else 0)) ->
  orthonormal_functions p.
Proof.
  intros Hg HG Z K L Fp Ep Hle Lc Lo Ecol Ie Io. apply cols_inner; [auto|congruence|]. rewrite Ep, Ecol, map_length, sort_len.
  intros l m Hl Hm'. rewrite !(nth_map_in _ _ _ 0%nat) by (rewrite sort_len; auto).
  pose proof (sort_lt l Hl) as Bl. pose proof (sort_lt m Hm') as Bm.
  assert (Eq : Nat.eqb l m = Nat.eqb (nth l sort 0%nat) (nth m sort 0%nat)).
  { destruct (Nat.eqb_spec l m) as [->|N]; [symmetry; apply Nat.eqb_refl|]. symmetry. apply Nat.eqb_neq. intros E. apply N, sort_inj; auto. }
  rewrite Eq. clear Eq. revert Bl Bm. generalize (nth l sort 0%nat) (nth m sort 0%nat). intros a b Ha Hb.
  unfold sgn. destruct (Nat.ltb_spec a ne) as [A|A], (Nat.ltb_spec b ne) as [B|B].
  - rewrite !app_nth1 by lia. eapply is_RInt_eq; [apply mirror_inner; auto|]. lra.
  - eapply is_RInt_eq; [apply (mirror_inner g G' Hg HG K L) with (v := RInt (fun x => cval g (nth a (ce ++ co) col0) x * cval g (nth b (ce ++ co) col0) x) (gxmin g) (gxmax g))|].
    + apply (RInt_correct (V := R_CompleteNormedModule)). eexists. apply inner_product; auto.
    + rewrite (proj2 (Nat.eqb_neq a b)) by lia. lra.
  - eapply is_RInt_eq; [apply (mirror_inner g G' Hg HG K L) with (v := RInt (fun x => cval g (nth a (ce ++ co) col0) x * cval g (nth b (ce ++ co) col0) x) (gxmin g) (gxmax g))|].
    + apply (RInt_correct (V := R_CompleteNormedModule)). eexists. apply inner_product; auto.
    + rewrite (proj2 (Nat.eqb_neq a b)) by lia. lra.
  - rewrite !app_nth2, Lc by lia. eapply is_RInt_eq; [apply mirror_inner; auto; apply Io; lia|].
    destruct (Nat.eqb_spec a b) as [->|N]; [rewrite Nat.eqb_refl; lra|]. rewrite (proj2 (Nat.eqb_neq _ _)) by lia. lra.
Qed.

Lemma merged_orthonormal_u : orthonormal_functions (su even) -> orthonormal_functions (su odd) -> orthonormal_functions (su r).
Proof.
  intros Oe Oo. destruct merged as (Fr & _ & K1 & K2 & L1 & L2 & _ & _ & Eu & Ev). destruct same_geoms as [Gu Gv].
  destruct range_u as [R1 R2]. destruct zero_u as (Z & Z1 & Z2).
  destruct He as (Fe & _ & _ & _ & _ & _ & N1 & _). destruct Ho as (Fo & _ & _ & _ & _ & _ & N2 & _).
  rewrite (cols_inner _ Fe) in Oe by lra. rewrite (cols_inner _ Fo) in Oo by (rewrite Gu; lra). rewrite Gu in Oo. rewrite N1 in Oe. rewrite N2 in Oo.
  apply (merged_ortho_gen gu G (vcols (su even)) (vcols (su odd))); auto using okgu, okG. rewrite R1, R2. lra.
Qed.
Lemma merged_orthonormal_v : orthonormal_functions (sv even) -> orthonormal_functions (sv odd) -> orthonormal_functions (sv r).
Proof.
  intros Oe Oo. destruct merged as (_ & Fr & K1 & K2 & L1 & L2 & _ & _ & Eu & Ev). destruct same_geoms as [Gu Gv].
  destruct range_v as [R1 R2]. destruct zero_v as (Z & Z1 & Z2).
  destruct He as (_ & Fe & _ & _ & _ & _ & _ & N1). destruct Ho as (_ & Fo & _ & _ & _ & _ & _ & N2).
  rewrite (cols_inner _ Fe) in Oe by lra. rewrite (cols_inner _ Fo) in Oo by (rewrite Gv; lra). rewrite Gv in Oo. rewrite N1 in Oe. rewrite N2 in Oo.
  apply (merged_ortho_gen gv H (vcols (sv even)) (vcols (sv odd))); auto using okgv, okH. rewrite R1, R2. lra.
Qed.

(** Approximation. *)
Section Kernel.
Variables (k : R -> R -> R) (e : R).
Hypothesis Hcs : forall x y, -1 <= x <= 1 -> -1 <= y <= 1 -> k (- x) (- y) = k x y.

Lemma k_parts x y : -1 <= x <= 1 -> -1 <= y <= 1 ->
  k x y = / 2 * ((k (Rabs x) (Rabs y) + k (Rabs x) (- Rabs y)) +
    (if Rltb x 0 then -1 else 1) * (if Rltb y 0 then -1 else 1) * (k (Rabs x) (Rabs y) - k (Rabs x) (- Rabs y))).
Proof.
  intros Hx Hy. pose proof (Hcs x y Hx Hy) as C1.
  destruct (Rltb x 0) eqn:Ex, (Rltb y 0) eqn:Ey; (apply Rltb_true in Ex || apply Rltb_false in Ex); (apply Rltb_true in Ey || apply Rltb_false in Ey).
  - rewrite (Rabs_left x), (Rabs_left y) by auto. lra.
  - rewrite (Rabs_left x), (Rabs_pos_eq y) by lra. lra.
  - rewrite (Rabs_pos_eq x), (Rabs_left y), Ropp_involutive by lra. lra.
  - rewrite (Rabs_pos_eq x), (Rabs_pos_eq y) by lra. lra.
Qed.

Lemma close_from_pieces x y i j : -1 <= x <= 1 -> -1 <= y <= 1 ->
  (forall sg sy c, cval G (mcol gu sg sy c) x = (if Rltb x 0 then sg else 1) * (1 / sqrt 2) * seg_fun gu c i (Rabs x)) ->
  (forall sg sy c, cval H (mcol gv sg sy c) y = (if Rltb y 0 then sg else 1) * (1 / sqrt 2) * seg_fun gv c j (Rabs y)) ->
  Rabs (piece even i j (Rabs x) (Rabs y) - (k (Rabs x) (Rabs y) + k (Rabs x) (- Rabs y))) <= e ->
  Rabs (piece odd i j (Rabs x) (Rabs y) - (k (Rabs x) (Rabs y) - k (Rabs x) (- Rabs y))) <= e ->
  within_at e r k x y.
Proof.
  intros Hx Hy Ex Ey B1 B2. destruct merged as (Fu & Fv & _). destruct lens as (N & N1 & N2). destruct range_u, range_v.
  eexists. split; [apply sve_sum_ok; auto; congruence || lra|].
  rewrite (merged_sum x y i j Ex Ey), (k_parts x y Hx Hy).
  set (P := piece even _ _ _ _) in *. set (Q := piece odd _ _ _ _) in *. apply Rabs_le_between in B1, B2. apply Rabs_le.
  destruct (Rltb x 0), (Rltb y 0); lra.
Qed.

Lemma eval_u x : -1 <= x <= 1 -> exists j, (j < gnseg gu)%nat /\ knot gu j <= Rabs x <= knot gu (S j) /\
  (forall sg sy c, cval G (mcol gu sg sy c) x = (if Rltb x 0 then sg else 1) * (1 / sqrt 2) * seg_fun gu c j (Rabs x)) /\
  (regular gu j (Rabs x) \/ (x < 0 /\ Rabs x = knot gu (S j) /\ (S j < gnseg gu)%nat)).
Proof.
  intros Hx. destruct merged as (_ & _ & K1 & K2 & L1 & L2 & _). destruct range_u as [R1 R2].
  apply (mirror_eval gu G okgu okG (proj1 zero_u) K1 L1). rewrite R1, R2. auto.
Qed.
Lemma eval_v x : -1 <= x <= 1 -> exists j, (j < gnseg gv)%nat /\ knot gv j <= Rabs x <= knot gv (S j) /\
  (forall sg sy c, cval H (mcol gv sg sy c) x = (if Rltb x 0 then sg else 1) * (1 / sqrt 2) * seg_fun gv c j (Rabs x)) /\
  (regular gv j (Rabs x) \/ (x < 0 /\ Rabs x = knot gv (S j) /\ (S j < gnseg gv)%nat)).
Proof.
  intros Hx. destruct merged as (_ & _ & K1 & K2 & L1 & L2 & _). destruct range_v as [R1 R2].
  apply (mirror_eval gv H okgv okH (proj1 zero_v) K2 L2). rewrite R1, R2. auto.
Qed.

Lemma abs01 x : -1 <= x <= 1 -> 0 <= Rabs x <= 1.
Proof. intros Hx. split; [apply Rabs_pos|apply Rabs_le; lra]. Qed.

Lemma merged_at x y : -1 <= x <= 1 -> -1 <= y <= 1 ->
  (0 <= x \/ ~ In (- x) hx) -> (0 <= y \/ ~ In (- y) hy) ->
  within_at e even (fun x y => k x y + k x (- y)) (Rabs x) (Rabs y) ->
  within_at e odd (fun x y => k x y - k x (- y)) (Rabs x) (Rabs y) -> within_at e r k x y.
Proof.
  intros Hx Hy Nx Ny We Wo. destruct (eval_u x Hx) as (i & Hi & Ii & Ei & Ri). destruct (eval_v y Hy) as (j & Hj & Ij & Ej & Rj).
  destruct same_geoms as [Gu Gv]. pose proof (abs01 x Hx). pose proof (abs01 y Hy).
  assert (Ri' : regular gu i (Rabs x)).
  { destruct Ri as [|(Hn & Ea & Hs)]; auto. exfalso. destruct Nx as [|Nx]; [lra|]. apply Nx. rewrite (Rabs_left x Hn) in Ea. rewrite Ea.
    destruct He as (Fu & _ & Ku & _). unfold knot. rewrite Ku. apply nth_In. rewrite <- Ku. pose proof (g_len gu okgu). lia. }
  assert (Rj' : regular gv j (Rabs y)).
  { destruct Rj as [|(Hn & Ea & Hs)]; auto. exfalso. destruct Ny as [|Ny]; [lra|]. apply Ny. rewrite (Rabs_left y Hn) in Ea. rewrite Ea.
    destruct He as (_ & Fv & _ & Kv & _). unfold knot. rewrite Kv. apply nth_In. rewrite <- Kv. pose proof (g_len gv okgv). lia. }
  apply (close_from_pieces x y i j); auto.
  - apply (piece_at n hx hy even (fun x y => k x y + k x (- y)) e); auto.
  - apply (piece_at n hx hy odd (fun x y => k x y - k x (- y)) e); auto; rewrite ?Gu, ?Gv; auto.
Qed.

Hypothesis We : forall x y, 0 <= x <= 1 -> 0 <= y <= 1 -> within_at e even (fun x y => k x y + k x (- y)) x y.
Hypothesis Wo : forall x y, 0 <= x <= 1 -> 0 <= y <= 1 -> within_at e odd (fun x y => k x y - k x (- y)) x y.

Lemma merged_off_knots x y : -1 <= x <= 1 -> -1 <= y <= 1 ->
  (0 <= x \/ ~ In (- x) hx) -> (0 <= y \/ ~ In (- y) hy) -> within_at e r k x y.
Proof. intros Hx Hy Nx Ny. apply merged_at; auto using abs01. Qed.

Hypothesis Hcx : forall x y, -1 <= x <= 1 -> -1 <= y <= 1 -> continuous (fun t => k t y) x.
Hypothesis Hcy : forall x y, -1 <= x <= 1 -> -1 <= y <= 1 -> continuous (fun t => k x t) y.

Lemma cont_opp x y : 0 <= x <= 1 -> 0 <= y <= 1 -> continuous (fun t => k x (- t)) y.
Proof.
  intros Hx Hy. apply (continuous_comp (fun t => - t) (fun t => k x t)); [|apply Hcy; lra].
  apply (continuous_opp (V := R_NormedModule) (fun t => t)), continuous_id.
Qed.

Lemma merged_everywhere x y : -1 <= x <= 1 -> -1 <= y <= 1 -> within_at e r k x y.
Proof.
  intros Hx Hy. destruct (eval_u x Hx) as (i & Hi & Ii & Ei & Ri). destruct (eval_v y Hy) as (j & Hj & Ij & Ej & Rj).
  destruct same_geoms as [Gu Gv].
  apply (close_from_pieces x y i j); auto.
  - apply (piece_closed n hx hy even (fun x y => k x y + k x (- y)) e); auto; try tauto.
    intros x' y' Hx' Hy'. split; apply (continuous_plus (V := R_NormedModule)); try (apply Hcx; lra); try (apply Hcy; lra).
    apply cont_opp; auto.
  - apply (piece_closed n hx hy odd (fun x y => k x y - k x (- y)) e); rewrite ?Gu, ?Gv; auto; try tauto.
    intros x' y' Hx' Hy'. split; apply (continuous_minus (V := R_NormedModule)); try (apply Hcx; lra); try (apply Hcy; lra).
    apply cont_opp; auto.
Qed.
End Kernel.

(** The gauge. *)
Lemma merged_positive : (forall l f, represents (su even) l f -> 0 < f 1) -> (forall l f, represents (su odd) l f -> 0 < f 1) ->
  forall l f, represents (su r) l f -> 0 < f 1.
Proof.
  intros Pe Po l f Hf. destruct range_u as [R1 R2]. destruct zero_u as (Z & Z1 & Z2). destruct merged as ((_ & Og & Lg) & _ & K1 & _ & L1 & _).
  destruct lens as (_ & N1 & _). destruct same_geoms as [Gu _].
  pose proof (in_cols _ _ _ 1 okG ltac:(lra) Hf) as Hl. rewrite N1 in Hl.
  apply represents_cval in Hf as (c & Ec & Hc); auto using okG; try lia.
  rewrite <- Hc by lra. apply (nth_error_nth _ _ col0) in Ec. rewrite col_u in Ec by auto. cbv zeta in Ec. subst c.
  destruct (eval_u 1 ltac:(lra)) as (j & Hj & _ & Ev & [Rg|(A & _)]); [|lra].
  rewrite Ev. rewrite (proj2 (Rltb_false 1 0)) by lra. rewrite (Rabs_pos_eq 1) in * by lra. rewrite Rg.
  pose proof (sqrt_lt_R0 2 ltac:(lra)). apply Rmult_lt_0_compat; [apply Rmult_lt_0_compat; [lra|apply Rdiv_lt_0_compat; lra]|].
  pose proof (sort_lt l Hl) as Bl. revert Bl. generalize (nth l sort 0%nat). intros a Ha. unfold mu.
  destruct He as ((Ge & Oe & Le) & _ & _ & _ & _ & _ & Ne & _). destruct Ho as ((Go & Oo & Lo) & _ & _ & _ & _ & _ & No & _).
  destruct (Nat.lt_ge_cases a ne).
  - rewrite app_nth1 by lia. apply (Pe a (fun x => cval gu (nth a (vcols (su even)) col0) x)).
    intros x Hx. apply value_cval; auto; try lia. apply nth_error_nth'. lia.
  - rewrite app_nth2, Ne by lia. apply (Po (a - ne)%nat (fun x => cval gu (nth (a - ne) (vcols (su odd)) col0) x)).
    intros x Hx. rewrite <- Gu. apply value_cval; auto; try lia. apply nth_error_nth'. lia.
Qed.
End Merge.
