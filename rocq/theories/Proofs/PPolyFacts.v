(** Geometry, evaluation, slicing and differentiation of piecewise polynomials. *)
From Coq Require Import Reals ZArith Arith Bool Lra Lia Psatz.
From Coquelicot Require Import Coquelicot.
From Coq Require Import List Sorting.Sorted.
From Verif.Model Require Import Base Num Roots Poly.
From Verif.Spec Require Import SPoly.
From Verif.Proofs Require Import BaseFacts SumFacts IntFacts LegFacts.
Import ListNotations.
Open Scope R_scope.
Arguments legP : simpl never.

(** * Knots *)
Lemma sorted_nth_lt (l : list R) i j : StronglySorted Rlt l -> (i < j < length l)%nat -> nth i l 0 < nth j l 0.
Proof.
  intros H. revert i j. induction H as [|a l Hs IH Ha]; intros i j Hij; simpl in *; [lia|].
  destruct i, j; try lia.
  - rewrite Forall_forall in Ha. apply Ha, nth_In. lia.
  - apply IH. lia.
Qed.
Lemma sorted_nth_le (l : list R) i j : StronglySorted Rlt l -> (i <= j < length l)%nat -> nth i l 0 <= nth j l 0.
Proof.
  intros H Hij. destruct (Nat.eq_dec i j) as [->|]; [lra|]. left. apply sorted_nth_lt; auto. lia.
Qed.

Lemma filter_all_gt x (l : list R) : Forall (fun k => x < k) l -> filter (fun k => Rleb k x) l = [].
Proof.
  induction 1; simpl; auto. replace (Rleb x0 x) with false; auto. symmetry. apply Rleb_false. auto.
Qed.
Lemma count_le (l : list R) : forall i x, StronglySorted Rlt l -> (i < length l)%nat ->
  nth i l 0 <= x -> ((S i < length l)%nat -> x < nth (S i) l 0) -> length (filter (fun k => Rleb k x) l) = S i.
Proof.
  induction l as [|a l IH]; intros i x Hs Hi H1 H2; simpl in Hi; [lia|].
  inversion Hs as [|? ? Hs' Ha]; subst.
  assert (Hax : a <= x).
  { destruct i; [exact H1|]. simpl in H1. rewrite Forall_forall in Ha.
    pose proof (Ha (nth i l 0) ltac:(apply nth_In; lia)). lra. }
  simpl. replace (Rleb a x) with true by (symmetry; apply Rleb_true; auto). simpl. f_equal.
  destruct i.
  - rewrite filter_all_gt; auto. destruct l as [|b l]; constructor.
    + apply H2. simpl. lia.
    + inversion Hs' as [|? ? _ Hb]; subst. eapply Forall_impl; [|exact Hb]. simpl. intros k Hk.
      pose proof (H2 ltac:(simpl; lia)) as H3. simpl in H3. lra.
  - apply IH; auto; [lia|]. intros Hlt. apply H2. simpl. lia.
Qed.

Section Geom.
Variable g : geom.
Hypothesis Hg : geom_ok g.

Lemma g_nseg : (0 < gnseg g)%nat.
Proof. apply Hg. Qed.
Lemma g_len : length (gknots g) = S (gnseg g).
Proof. apply Hg. Qed.
Lemma g_sorted : StronglySorted Rlt (gknots g).
Proof. apply Hg. Qed.
Lemma g_dx i : (i < gnseg g)%nat -> nth i (gdx g) 0 = knot g (S i) - knot g i.
Proof. apply Hg. Qed.
Lemma knot_lt i j : (i < j <= gnseg g)%nat -> knot g i < knot g j.
Proof. intros H. apply sorted_nth_lt; [apply g_sorted|]. rewrite g_len. lia. Qed.
Lemma knot_le i j : (i <= j <= gnseg g)%nat -> knot g i <= knot g j.
Proof. intros H. apply sorted_nth_le; [apply g_sorted|]. rewrite g_len. lia. Qed.
Lemma xmin_knot : gxmin g = knot g 0.
Proof. reflexivity. Qed.
Lemma xmax_knot : gxmax g = knot g (gnseg g).
Proof. reflexivity. Qed.

(** Every point of the interval lies in a segment. *)
Lemma find_segment x : gxmin g <= x <= gxmax g ->
  exists i, (i < gnseg g)%nat /\ knot g i <= x /\ (x < knot g (S i) \/ (S i = gnseg g /\ x = gxmax g)).
Proof.
  intros [H1 H2]. rewrite xmin_knot in H1. rewrite xmax_knot in H2.
  assert (H : forall n, (n <= gnseg g)%nat -> x < knot g n -> exists i, (i < n)%nat /\ knot g i <= x < knot g (S i)).
  { induction n; intros Hn Hx; [lra|].
    destruct (Rlt_dec x (knot g n)) as [Hlt|Hge].
    - destruct IHn as (i & Hi & Hx'); [lia|auto|]. exists i. split; auto.
    - exists n. split; [lia|]. split; lra. }
  destruct (Rlt_dec x (knot g (gnseg g))) as [Hlt|Hge].
  - destruct (H (gnseg g)) as (i & Hi & Hx); auto. exists i. intuition.
  - pose proof g_nseg. exists (gnseg g - 1)%nat. split; [lia|].
    assert (x = knot g (gnseg g)) by lra. subst x. split; [apply knot_le; lia|].
    right. split; [lia|reflexivity].
Qed.

Lemma segment_spec i x : (i < gnseg g)%nat -> knot g i <= x ->
  (x < knot g (S i) \/ (S i = gnseg g /\ x = gxmax g)) -> segment g x = i.
Proof.
  intros Hi H1 H2. unfold segment. pose proof g_len as Hl. pose proof g_nseg.
  destruct H2 as [H2|[H2 ->]].
  - rewrite (count_le _ i x); auto using g_sorted; try lia.
  - rewrite (count_le _ (gnseg g)); auto using g_sorted; try lia. unfold gxmax. lra.
Qed.

Lemma ginv_eq i : (i < gnseg g)%nat -> ginv g i = 2 / (knot g (S i) - knot g i).
Proof. intros. unfold ginv. rewrite g_dx; auto. Qed.
Lemma gxm_eq i : gxm g i = (knot g i + knot g (S i)) / 2.
Proof. unfold gxm, knot. lra. Qed.

Lemma local_coord i x : (i < gnseg g)%nat ->
  (x - gxm g i) * ginv g i = (2 * x - knot g i - knot g (S i)) / (knot g (S i) - knot g i).
Proof. intros Hi. rewrite gxm_eq, ginv_eq by auto. pose proof (knot_lt i (S i) ltac:(lia)). field. lra. Qed.

Lemma local_range i x : (i < gnseg g)%nat -> knot g i <= x <= knot g (S i) ->
  -1 <= (x - gxm g i) * ginv g i <= 1.
Proof.
  intros Hi Hx. rewrite local_coord by auto. pose proof (knot_lt i (S i) ltac:(lia)) as Hlt.
  assert (Hd : 0 < / (knot g (S i) - knot g i)) by (apply Rinv_0_lt_compat; lra).
  assert (E : (knot g (S i) - knot g i) * / (knot g (S i) - knot g i) = 1) by (field; lra).
  unfold Rdiv. split; nra.
Qed.

Lemma cval_seg c i x : (i < gnseg g)%nat -> knot g i <= x ->
  (x < knot g (S i) \/ (S i = gnseg g /\ x = gxmax g)) -> cval g c x = seg_fun g c i x.
Proof.
  intros Hi H1 H2. unfold cval. rewrite (segment_spec i x) by auto. rewrite local_coord by auto.
  unfold gnorm. rewrite ginv_eq by auto. unfold seg_fun, legval. ring.
Qed.

Lemma in_range_true x : in_range g x = true <-> gxmin g <= x <= gxmax g.
Proof. unfold in_range. rewrite andb_true_iff, !Rleb_true. tauto. Qed.
Lemma in_range_false x : in_range g x = false <-> (x < gxmin g \/ gxmax g < x).
Proof. unfold in_range. rewrite andb_false_iff, !Rleb_false. tauto. Qed.

Lemma split_ok x : gxmin g <= x <= gxmax g ->
  split g x = Ok (segment g x, (x - gxm g (segment g x)) * ginv g (segment g x)).
Proof.
  intros H. unfold split. rewrite (proj2 (in_range_true x) H). simpl.
  pose proof g_nseg. destruct (gnseg g); [lia|reflexivity].
Qed.
Lemma split_out x : (x < gxmin g \/ gxmax g < x) -> split g x = Raise ValueError.
Proof. intros H. unfold split. rewrite (proj2 (in_range_false x) H). reflexivity. Qed.

Lemma split_spec x : gxmin g <= x <= gxmax g ->
  exists i t, split g x = Ok (i, t) /\ (i < gnseg g)%nat /\ knot g i <= x <= knot g (S i) /\
    (x < knot g (S i) \/ (S i = gnseg g /\ x = gxmax g)) /\
    -1 <= t <= 1 /\ x = (knot g i + knot g (S i)) / 2 + t * ((knot g (S i) - knot g i) / 2).
Proof.
  intros H. destruct (find_segment x H) as (i & Hi & H1 & H2).
  pose proof (segment_spec i x Hi H1 H2) as Es.
  exists i, ((x - gxm g i) * ginv g i). rewrite split_ok, Es by auto.
  assert (Hx : knot g i <= x <= knot g (S i)).
  { split; auto. destruct H2 as [H2|[H2 ->]]; [lra|]. rewrite xmax_knot, H2. lra. }
  repeat (split; [solve [auto]|]). split; [apply local_range; auto|].
  rewrite local_coord by auto. pose proof (knot_lt i (S i) ltac:(lia)). field. lra.
Qed.

Lemma scall_ok c x : (0 < glen g)%nat -> gxmin g <= x <= gxmax g -> scall (SPoly g c) x = Ok (cval g c x).
Proof.
  intros Hl H. unfold scall. simpl. rewrite split_ok by auto. simpl. destruct (glen g) eqn:E; [lia|].
  unfold cval. rewrite E. reflexivity.
Qed.
End Geom.

(** * Construction *)
Lemma forallb_map2_le (f : R -> R -> bool) (l : list R) :
  forallb (fun b => b) (map2 f (init l) (tl l)) = true <->
  (forall i, (S i < length l)%nat -> f (nth i l 0) (nth (S i) l 0) = true).
Proof.
  destruct l as [|a l]; [simpl; split; auto; intros; lia|].
  revert a. induction l as [|b l IH]; intros a.
  - simpl. split; auto. intros; lia.
  - unfold init. change (removelast (a :: b :: l)) with (a :: removelast (b :: l)).
    simpl tl. change (map2 f (a :: removelast (b :: l)) (b :: l)) with (f a b :: map2 f (init (b :: l)) (tl (b :: l))).
    change (forallb (fun b0 => b0) (f a b :: map2 f (init (b :: l)) (tl (b :: l))))
      with (f a b && forallb (fun b0 => b0) (map2 f (init (b :: l)) (tl (b :: l)))).
    rewrite andb_true_iff, IH. split.
    + intros [H1 H2] i Hi. destruct i; simpl; auto. apply H2. simpl in Hi |- *. lia.
    + intros H. split; [apply (H 0%nat); simpl; lia|].
      intros i Hi. apply (H (S i)). simpl in Hi |- *. lia.
Qed.

Lemma diffs_length l : length (diffs l) = (length l - 1)%nat.
Proof. unfold diffs. rewrite map2_length, init_length. destruct l; simpl; lia. Qed.
Lemma diffs_nth l i : (S i < length l)%nat -> nth i (diffs l) 0 = nth (S i) l 0 - nth i l 0.
Proof.
  intros H. unfold diffs. rewrite (map2_nth _ _ _ _ 0 0 0).
  - rewrite init_nth by auto. destruct l; simpl in *; [lia|reflexivity].
  - rewrite init_length. lia.
  - destruct l; simpl in *; lia.
Qed.

Lemma poly_init_ok order nseg dat knots symm p :
  poly_init order nseg dat knots None symm = Ok p -> (0 < nseg)%nat -> StronglySorted Rlt knots ->
  geom_ok (vgeom p) /\ gknots (vgeom p) = knots /\ glen (vgeom p) = order /\ gorder (vgeom p) = order.
Proof.
  unfold poly_init. destruct (Nat.eqb_spec (length knots) (S nseg)) as [El|]; [simpl|discriminate].
  destruct (forallb _ _) eqn:Ef; [simpl|discriminate].
  destruct symm as [s|].
  - destruct (Nat.eqb (length s) (length dat)); [simpl|discriminate]. intros [= <-] Hn Hs. simpl.
    split; [|auto]. repeat (split; [solve [auto]|]). simpl. split; [rewrite diffs_length; lia|].
    intros i Hi. apply diffs_nth. lia.
  - intros [= <-] Hn Hs. simpl.
    split; [|auto]. repeat (split; [solve [auto]|]). simpl. split; [rewrite diffs_length; lia|].
    intros i Hi. apply diffs_nth. lia.
Qed.

Lemma poly_init_some order nseg dat knots symm :
  length knots = S nseg -> (forall i, (i < nseg)%nat -> nth i knots 0 <= nth (S i) knots 0) ->
  (match symm with None => True | Some s => length s = length dat end) ->
  exists p, poly_init order nseg dat knots None symm = Ok p /\ length (vcols p) = length dat.
Proof.
  intros Hl Hk Hs. unfold poly_init. rewrite Hl, Nat.eqb_refl. simpl negb. cbv iota.
  rewrite (proj2 (forallb_map2_le _ knots)).
  2:{ intros i Hi. apply Rleb_true, Hk. lia. }
  simpl negb. cbv iota. destruct symm as [s|]; simpl.
  - rewrite Hs, Nat.eqb_refl. simpl. eexists; split; eauto. simpl. rewrite map2_length, Hs. lia.
  - eexists; split; eauto. simpl. rewrite map2_length, map_length. lia.
Qed.

Lemma poly_init_raises order nseg dat knots dx symm :
  (exists p, poly_init order nseg dat knots dx symm = Ok p) \/
  poly_init order nseg dat knots dx symm = Raise ValueError.
Proof.
  unfold poly_init. destruct (negb _); [auto|]. destruct (negb _); [auto|].
  destruct symm as [s|]; simpl; [destruct (Nat.eqb (length s) (length dat)); simpl; auto|];
  destruct dx as [d|]; simpl; eauto; destruct (_ && _); simpl; eauto.
Qed.

Lemma poly_init_decreasing order nseg dat knots dx symm i :
  (S i < length knots)%nat -> nth (S i) knots 0 < nth i knots 0 ->
  poly_init order nseg dat knots dx symm = Raise ValueError.
Proof.
  intros Hi H. unfold poly_init. destruct (negb (_ =? _)%nat); auto.
  destruct (forallb _ _) eqn:E; auto. exfalso.
  apply forallb_map2_le with (i := i) in E; auto. apply Rleb_true in E. lra.
Qed.

(** * Slicing *)
Lemma pyindex_map {A B} (f : A -> B) l i : pyindex (map f l) i = option_map f (pyindex l i).
Proof.
  unfold pyindex. rewrite map_length. destruct (_ && _); auto. rewrite nth_error_map. reflexivity.
Qed.
Lemma pyindex_some {A} (l : list A) i :
  (- Z.of_nat (length l) <= i < Z.of_nat (length l))%Z <-> exists a, pyindex l i = Some a.
Proof.
  unfold pyindex. split.
  - intros H. rewrite (proj2 (andb_true_iff _ _)) by (split; [apply Z.leb_le|apply Z.ltb_lt]; lia).
    destruct (nth_error l _) eqn:E; [eauto|]. exfalso. apply nth_error_None in E.
    destruct (Z.ltb_spec i 0); lia.
  - intros [a H]. destruct ((- Z.of_nat (length l) <=? i)%Z) eqn:E1; [|discriminate].
    destruct ((i <? Z.of_nat (length l))%Z) eqn:E2; [|discriminate].
    apply Z.leb_le in E1. apply Z.ltb_lt in E2. lia.
Qed.
Lemma slice_to_map {A B} (f : A -> B) n l : slice_to n (map f l) = map f (slice_to n l).
Proof. unfold slice_to. rewrite map_length. destruct (n <? 0)%Z; apply firstn_map. Qed.

Lemma getslice_vderiv m p n : getslice (vderiv m p) n = vderiv m (getslice p n).
Proof. unfold getslice, vderiv. simpl. rewrite slice_to_map. reflexivity. Qed.
Lemma getitem_vderiv m p l : getitem (vderiv m p) l = do q <- getitem p l; Ok (sderiv m q).
Proof.
  unfold getitem, vderiv. simpl. rewrite pyindex_map. destruct (pyindex (vcols p) l); reflexivity.
Qed.
Lemma vcall_slice p n x : vcall (getslice p n) x = do vs <- vcall p x; Ok (slice_to n vs).
Proof.
  unfold vcall, getslice. simpl. destruct (split (vgeom p) x); simpl; auto.
  destruct (glen (vgeom p)); simpl; auto. rewrite slice_to_map. reflexivity.
Qed.
Lemma getitem_slice p n l : (0 <= l < n)%Z -> (n <= Z.of_nat (length (vcols p)))%Z ->
  getitem (getslice p n) l = getitem p l.
Proof.
  intros H Hn. unfold getitem, getslice, pyindex, slice_to. simpl.
  destruct (Z.ltb_spec n 0); [lia|]. rewrite firstn_length.
  replace (Z.of_nat (Nat.min (Z.to_nat n) (length (vcols p)))) with n by lia.
  rewrite (proj2 (andb_true_iff _ _)) by (split; [apply Z.leb_le|apply Z.ltb_lt]; lia).
  rewrite (proj2 (andb_true_iff _ _)) by (split; [apply Z.leb_le|apply Z.ltb_lt]; lia).
  destruct (Z.ltb_spec l 0); [lia|].
  assert (E : nth_error (firstn (Z.to_nat n) (vcols p)) (Z.to_nat l) = nth_error (vcols p) (Z.to_nat l)).
  { rewrite <- (firstn_skipn (Z.to_nat n) (vcols p)) at 2. rewrite nth_error_app1; auto.
    rewrite firstn_length. lia. }
  rewrite E. reflexivity.
Qed.

(** * The evaluation routes *)
Lemma value_item p l x v : value p l x = Ok v <-> (do q <- getitem p l; scall q x) = Ok v.
Proof.
  unfold value, getitem, scall. destruct (pyindex (vcols p) l) as [c|]; simpl.
  - destruct (split (vgeom p) x); simpl; [|tauto]. destruct (glen (vgeom p)); tauto.
  - destruct (split (vgeom p) x); simpl; split; discriminate.
Qed.
Lemma value_vcall p l x v : value p l x = Ok v <-> exists vs, vcall p x = Ok vs /\ pyindex vs l = Some v.
Proof.
  unfold value, vcall. destruct (split (vgeom p) x) as [a|e]; simpl.
  - destruct (glen (vgeom p)) as [|n] eqn:E.
    + split; [|intros (vs & H & _); discriminate]. destruct (pyindex (vcols p) l); discriminate.
    + split.
      * destruct (pyindex (vcols p) l) eqn:El; [|discriminate]. intros [= <-].
        eexists. split; [reflexivity|]. rewrite pyindex_map, El. reflexivity.
      * intros (vs & [= <-] & H). rewrite pyindex_map in H. destruct (pyindex (vcols p) l); [|discriminate].
        simpl in H. congruence.
  - split; [discriminate|]. intros (vs & H & _). discriminate.
Qed.
Lemma value_ok p l x : geom_ok (vgeom p) -> (0 < glen (vgeom p))%nat ->
  ((exists v, value p l x = Ok v) <->
   gxmin (vgeom p) <= x <= gxmax (vgeom p) /\ (- Z.of_nat (length (vcols p)) <= l < Z.of_nat (length (vcols p)))%Z).
Proof.
  intros Hg Hl. unfold value. split.
  - intros [v H]. destruct (in_range (vgeom p) x) eqn:Er.
    + split; [apply in_range_true; auto|]. apply in_range_true in Er. rewrite split_ok in H by auto. simpl in H.
      apply pyindex_some. destruct (pyindex (vcols p) l); [eauto|discriminate].
    + apply in_range_false in Er. rewrite split_out in H by auto. discriminate.
  - intros [Hx Hi]. apply pyindex_some in Hi as [c Hc]. rewrite split_ok, Hc by auto. simpl.
    destruct (glen (vgeom p)); [lia|eauto].
Qed.

Lemma getitem_cases p l :
  ((0 <= l < Z.of_nat (length (vcols p)))%Z -> exists c, nth_error (vcols p) (Z.to_nat l) = Some c /\ getitem p l = Ok (SPoly (vgeom p) c)) /\
  ((- Z.of_nat (length (vcols p)) <= l < 0)%Z -> exists c, nth_error (vcols p) (Z.to_nat (Z.of_nat (length (vcols p)) + l)) = Some c /\ getitem p l = Ok (SPoly (vgeom p) c)) /\
  (~ (- Z.of_nat (length (vcols p)) <= l < Z.of_nat (length (vcols p)))%Z -> getitem p l = Raise IndexError).
Proof.
  unfold getitem. split; [|split].
  - intros H. destruct (proj1 (pyindex_some (vcols p) l) ltac:(lia)) as [c Hc]. exists c. rewrite Hc. split; [|reflexivity]. unfold pyindex in Hc.
    destruct (_ && _)%bool; [|discriminate]. rewrite (proj2 (Z.ltb_ge l 0)) in Hc by lia. exact Hc.
  - intros H. destruct (proj1 (pyindex_some (vcols p) l) ltac:(lia)) as [c Hc]. exists c. rewrite Hc. split; [|reflexivity]. unfold pyindex in Hc.
    destruct (_ && _)%bool; [|discriminate]. rewrite (proj2 (Z.ltb_lt l 0)) in Hc by lia. rewrite Z.add_comm. exact Hc.
  - intros H. destruct (pyindex (vcols p) l) eqn:E; [|reflexivity]. exfalso. apply H, pyindex_some. eauto.
Qed.

Lemma exceptions p l x : geom_ok (vgeom p) -> (0 < glen (vgeom p))%nat ->
  (x < gxmin (vgeom p) \/ gxmax (vgeom p) < x -> value p l x = Raise ValueError /\ vcall p x = Raise ValueError) /\
  (gxmin (vgeom p) <= x <= gxmax (vgeom p) -> ~ (- Z.of_nat (length (vcols p)) <= l < Z.of_nat (length (vcols p)))%Z -> value p l x = Raise IndexError).
Proof.
  intros Hg Hl. split.
  - intros Hx. unfold value, vcall. rewrite split_out by auto. auto.
  - intros Hx Hi. unfold value. rewrite split_ok by auto. cbn [bind]. destruct (pyindex (vcols p) l) eqn:E; [|reflexivity]. exfalso. apply Hi, pyindex_some. eauto.
Qed.

Lemma collect_ok {A} (l : list (res A)) r : collect l = Ok r <-> Forall2 (fun a b => a = Ok b) l r.
Proof.
  revert r. induction l as [|a l IH]; intros r; simpl.
  - split; [intros [= <-]; constructor|]. intros H. inversion H; auto.
  - destruct a as [a|e]; simpl.
    + destruct (collect l) as [t|e]; simpl.
      * split; [intros [= <-]; constructor; auto; apply IH; auto|].
        intros H. inversion H as [|? ? ? ? E F]; subst. injection E as <-. apply IH in F. injection F as <-. auto.
      * split; [discriminate|]. intros H. inversion H as [|? ? ? ? E F]; subst. apply IH in F. discriminate.
    + split; [discriminate|]. intros H. inversion H; subst. discriminate.
Qed.

Lemma vcall_arr_ok p xs M : geom_ok (vgeom p) -> (0 < glen (vgeom p))%nat ->
  (vcall_arr p xs = Ok M <->
   Forall (fun x => gxmin (vgeom p) <= x <= gxmax (vgeom p)) xs /\
   M = map (fun c => map (cval (vgeom p) c) xs) (vcols p)).
Proof.
  intros Hg Hl. unfold vcall_arr. destruct (forallb (in_range (vgeom p)) xs) eqn:E; simpl.
  - assert (F : Forall (fun x => gxmin (vgeom p) <= x <= gxmax (vgeom p)) xs).
    { apply Forall_forall. intros x Hx. rewrite forallb_forall in E. apply in_range_true; auto. }
    assert (C : collect (map (split (vgeom p)) xs) =
                Ok (map (fun x => (segment (vgeom p) x, (x - gxm (vgeom p) (segment (vgeom p) x)) * ginv (vgeom p) (segment (vgeom p) x))) xs)).
    { apply collect_ok. clear E. induction F as [|x xs Hx F IH]; simpl; constructor; auto. apply split_ok; auto. }
    rewrite C. simpl. destruct (glen (vgeom p)) as [|n] eqn:En; [lia|].
    assert (E2 : map (fun c => map (fun a => legval (S n) (fun k => cdat c k (fst a)) (snd a) * gnorm (vgeom p) (fst a))
               (map (fun x => (segment (vgeom p) x, (x - gxm (vgeom p) (segment (vgeom p) x)) * ginv (vgeom p) (segment (vgeom p) x))) xs))
              (vcols p) = map (fun c => map (cval (vgeom p) c) xs) (vcols p)).
    { apply map_ext. intros c. rewrite map_map. apply map_ext. intros x. simpl. unfold cval. rewrite En. reflexivity. }
    rewrite E2. split; [intros [= <-]; auto|]. intros [_ ->]. auto.
  - split; [discriminate|]. intros [F _]. exfalso.
    assert (forallb (in_range (vgeom p)) xs = true); [|congruence].
    apply forallb_forall. rewrite Forall_forall in F. intros x Hx. apply in_range_true; auto.
Qed.
Lemma vcall_arr_raises p xs : (0 < glen (vgeom p))%nat -> ~ Forall (fun x => gxmin (vgeom p) <= x <= gxmax (vgeom p)) xs ->
  vcall_arr p xs = Raise ValueError.
Proof.
  intros Hl F. unfold vcall_arr. destruct (forallb (in_range (vgeom p)) xs) eqn:E; auto.
  exfalso. apply F, Forall_forall. intros x Hx. rewrite forallb_forall in E. apply in_range_true; auto.
Qed.

(** * Differentiation *)
Lemma is_derive_n_chain (F : nat -> R -> R) : (forall m t, is_derive (F m) t (F (S m) t)) ->
  forall m x, is_derive_n (F 0%nat) m x (F m x).
Proof.
  intros H.
  assert (E : forall m t, Derive_n (F 0%nat) m t = F m t).
  { induction m; intros t; [reflexivity|]. simpl.
    rewrite (Derive_ext _ (F m)) by apply IHm. apply is_derive_unique, H. }
  destruct m; intros x; [reflexivity|]. simpl.
  eapply is_derive_ext; [|apply H]. intros t. symmetry. apply E.
Qed.

Lemma legder_S m n c k : legder (S m) n c k = legder1 (legder_len m n) (legder m n c) k.
Proof.
  revert n c k. induction m; intros n c k; [reflexivity|].
  change (legder (S (S m)) n c k) with (legder (S m) (legder1_len n) (legder1 n c) k).
  rewrite IHm. unfold legder_len.
  replace (Nat.iter m legder1_len (legder1_len n)) with (Nat.iter (S m) legder1_len n); [reflexivity|].
  clear. induction m; simpl in *; auto.
Qed.

Lemma legval_chain n c a b K : forall m t,
  is_derive (fun t => legval (legder_len m n) (legder m n c) (a * t + b) * a ^ m * K) t
            (legval (legder_len (S m) n) (legder (S m) n c) (a * t + b) * a ^ (S m) * K).
Proof.
  intros m t.
  pose proof (is_derive_legval (legder_len m n) (legder m n c) (a * t + b)) as H.
  auto_derive.
  - eexists. exact H.
  - rewrite (Derive_eta _ _ _ H).
    replace (legval (legder_len (S m) n) (legder (S m) n c) (a * t + b))
       with (legval (legder1_len (legder_len m n)) (legder1 (legder_len m n) (legder m n c)) (a * t + b)).
    2:{ change (legder_len (S m) n) with (legder1_len (legder_len m n)). apply legval_ext. intros k _. rewrite legder_S. reflexivity. }
    rewrite <- tech_pow_Rmult. ring.
Qed.

Lemma legval_scal n c K x : legval n (fun k => c k * K) x = legval n c x * K.
Proof. unfold legval. rewrite <- sumn_scal_r. apply sumn_ext. intros; ring. Qed.

Lemma gderiv_ok n g : geom_ok g -> geom_ok (gderiv n g).
Proof. exact (fun H => H). Qed.

Lemma deriv_interior g c m i x : geom_ok g -> (i < gnseg g)%nat -> knot g i < x < knot g (S i) ->
  is_derive_n (cval g c) m x (cval (gderiv m g) (cderiv m g c) x).
Proof.
  intros Hg Hi Hx.
  set (a := ginv g i). set (b := - gxm g i * ginv g i).
  set (F := fun m t => legval (legder_len m (glen g)) (legder m (glen g) (fun k => cdat c k i)) (a * t + b) * a ^ m * gnorm g i).
  assert (E : cval (gderiv m g) (cderiv m g c) x = F m x).
  { unfold cval. change (segment (gderiv m g) x) with (segment g x).
    rewrite (segment_spec g Hg i x) by (auto; try (left; lra); lra). simpl.
    change (gxm (gderiv m g) i) with (gxm g i). change (ginv (gderiv m g) i) with (ginv g i).
    change (gnorm (gderiv m g) i) with (gnorm g i). unfold F.
    rewrite legval_scal. subst a b. f_equal. f_equal. f_equal. ring. }
  rewrite E. eapply (is_derive_n_ext_loc (F 0%nat)).
  - assert (Hd : 0 < Rmin (x - knot g i) (knot g (S i) - x)) by (apply Rmin_pos; lra).
    exists (mkposreal _ Hd). intros y Hy. unfold ball in Hy. simpl in Hy. unfold AbsRing_ball, abs, minus, plus, opp in Hy. simpl in Hy.
    apply Rabs_lt_between in Hy. pose proof (Rmin_l (x - knot g i) (knot g (S i) - x)). pose proof (Rmin_r (x - knot g i) (knot g (S i) - x)).
    unfold cval. rewrite (segment_spec g Hg i y) by (auto; try (left; lra); lra).
    unfold F. simpl. subst a b. rewrite Rmult_1_r. f_equal. f_equal. ring.
  - apply is_derive_n_chain. intros k t. apply legval_chain.
Qed.

(** The expansion used on segment i, as a function on all of R. *)
Definition segF (g : geom) (c : col) (i m : nat) (t : R) : R :=
  legval (legder_len m (glen g)) (legder m (glen g) (fun k => cdat c k i)) (ginv g i * t + - gxm g i * ginv g i) *
  ginv g i ^ m * gnorm g i.
Lemma segF_chain g c i m t : is_derive (segF g c i m) t (segF g c i (S m) t).
Proof. apply legval_chain. Qed.
Lemma cval_segF g c m i x : geom_ok g -> (i < gnseg g)%nat -> knot g i < x < knot g (S i) ->
  cval (gderiv m g) (cderiv m g c) x = segF g c i m x.
Proof.
  intros Hg Hi Hx. unfold cval. change (segment (gderiv m g) x) with (segment g x).
  rewrite (segment_spec g Hg i x) by (auto; try (left; lra); lra). simpl.
  change (gxm (gderiv m g) i) with (gxm g i). change (ginv (gderiv m g) i) with (ginv g i).
  change (gnorm (gderiv m g) i) with (gnorm g i). unfold segF.
  rewrite legval_scal. f_equal. f_equal. f_equal. ring.
Qed.
Lemma gderiv_0 g c x : cval (gderiv 0 g) (cderiv 0 g c) x = cval g c x.
Proof.
  unfold cval. simpl. change (segment (gderiv 0 g) x) with (segment g x). f_equal.
  apply legval_ext. intros k _. simpl. ring.
Qed.

Lemma open_loc a b x (P : R -> Prop) : a < x < b -> (forall y, a < y < b -> P y) -> locally x P.
Proof.
  intros Hx H. assert (Hd : 0 < Rmin (x - a) (b - x)) by (apply Rmin_pos; lra).
  exists (mkposreal _ Hd). intros y Hy. unfold ball in Hy. simpl in Hy.
  unfold AbsRing_ball, abs, minus, plus, opp in Hy. simpl in Hy.
  apply Rabs_lt_between in Hy. pose proof (Rmin_l (x - a) (b - x)). pose proof (Rmin_r (x - a) (b - x)).
  apply H. lra.
Qed.

(** The parity of a function with respect to the centre of its interval carries
    over to the derivative with the sign (-1)^m. *)
Lemma deriv_parity g c s : geom_ok g ->
  (forall i, (i <= gnseg g)%nat -> knot g (gnseg g - i) = gxmin g + gxmax g - knot g i) ->
  (forall i x, (i < gnseg g)%nat -> knot g i < x < knot g (S i) ->
     cval g c (gxmin g + gxmax g - x) = s * cval g c x) ->
  forall m i x, (i < gnseg g)%nat -> knot g i < x < knot g (S i) ->
     cval (gderiv m g) (cderiv m g c) (gxmin g + gxmax g - x) = (-1) ^ m * s * cval (gderiv m g) (cderiv m g c) x.
Proof.
  intros Hg Hk H m i x Hi Hx. set (C := gxmin g + gxmax g) in *. set (j := (gnseg g - S i)%nat).
  assert (Hj : (j < gnseg g)%nat) by (subst j; lia).
  assert (Hkj : knot g j = C - knot g (S i)) by (apply Hk; lia).
  assert (HkSj : knot g (S j) = C - knot g i).
  { replace (S j) with (gnseg g - i)%nat by (subst j; lia). apply Hk. lia. }
  assert (E : forall m t, knot g i < t < knot g (S i) -> (-1) ^ m * segF g c j m (C - t) = s * segF g c i m t).
  { induction m0 as [|m0 IH]; intros t Ht.
    - rewrite <- (cval_segF g c 0 j) by (auto; lra). rewrite <- (cval_segF g c 0 i) by auto.
      rewrite !gderiv_0, (H i) by auto. simpl. ring.
    - assert (D1 : is_derive (fun u => (-1) ^ m0 * segF g c j m0 (C - u)) t ((-1) ^ m0 * (- segF g c j (S m0) (C - t)))).
      { pose proof (segF_chain g c j m0 (C - t)) as Hc. auto_derive; [eexists; exact Hc|].
        change (C + - t) with (C - t). rewrite (Derive_eta _ _ _ Hc). ring. }
      assert (D2 : is_derive (fun u => s * segF g c i m0 u) t (s * segF g c i (S m0) t)).
      { pose proof (segF_chain g c i m0 t) as Hc. auto_derive; [eexists; exact Hc|].
        rewrite (Derive_eta _ _ _ Hc). ring. }
      assert (D3 : is_derive (fun u => s * segF g c i m0 u) t ((-1) ^ m0 * (- segF g c j (S m0) (C - t)))).
      { eapply is_derive_ext_loc; [|exact D1]. apply (open_loc (knot g i) (knot g (S i))); auto. }
      apply is_derive_unique in D2. apply is_derive_unique in D3. rewrite <- D2, D3. simpl. ring. }
  rewrite (cval_segF g c m j) by (auto; lra). rewrite (cval_segF g c m i) by auto.
  specialize (E m x Hx).
  assert (Em : (-1) ^ m * (-1) ^ m = 1) by (rewrite <- Rpow_mult_distr; replace (-1 * -1) with 1 by lra; apply pow1).
  replace (segF g c j m (C - x)) with ((-1) ^ m * ((-1) ^ m * segF g c j m (C - x))) by (rewrite <- Rmult_assoc, Em; ring).
  rewrite E. ring.
Qed.
