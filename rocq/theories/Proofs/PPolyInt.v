(** Integrals and roots of piecewise polynomials. *)
From Coq Require Import Reals ZArith Arith Bool Lra Lia Psatz.
From Coquelicot Require Import Coquelicot.
From Coq Require Import List Sorting.Sorted.
From Verif.Model Require Import Base Num Roots Poly.
From Verif.Spec Require Import SRoots SPoly.
From Verif.Proofs Require Import BaseFacts RootsCont SumFacts IntFacts LegFacts PPolyFacts.
Import ListNotations.
Open Scope R_scope.
Arguments legP : simpl never.

(** * Integrals *)
Lemma is_RInt_knots g (f : R -> R) (v : nat -> R) : forall n, (n <= gnseg g)%nat ->
  (forall i, (i < n)%nat -> is_RInt f (knot g i) (knot g (S i)) (v i)) ->
  is_RInt f (knot g 0) (knot g n) (sumn n v).
Proof.
  induction n; intros Hn H; simpl.
  - apply (is_RInt_point (V := R_CompleteNormedModule)).
  - eapply is_RInt_chasles; [apply IHn; [lia|intros; apply H; lia]|apply H; lia].
Qed.

Section Int.
Variable g : geom.
Hypothesis Hg : geom_ok g.

Lemma ginv_pos i : (i < gnseg g)%nat -> 0 < ginv g i.
Proof.
  intros Hi. rewrite ginv_eq by auto. pose proof (knot_lt g Hg i (S i) ltac:(lia)).
  apply Rdiv_lt_0_compat; lra.
Qed.
Lemma gnorm_sqr i : (i < gnseg g)%nat -> gnorm g i * gnorm g i = ginv g i.
Proof. intros Hi. apply sqrt_sqrt. left. apply ginv_pos; auto. Qed.

(** On one segment the integrand may be replaced by its expansion there, and the
    variable by the local coordinate. *)
Lemma is_RInt_segment i (h : R -> R) v : (i < gnseg g)%nat ->
  is_RInt h (-1) 1 v ->
  is_RInt (fun x => ginv g i * h ((x - gxm g i) * ginv g i)) (knot g i) (knot g (S i)) v.
Proof.
  intros Hi H. pose proof (knot_lt g Hg i (S i) ltac:(lia)).
  eapply is_RInt_fext; [|apply (is_RInt_lin h (ginv g i) (- gxm g i * ginv g i))].
  - intros x. simpl. f_equal. f_equal. ring.
  - rewrite gxm_eq, ginv_eq by auto.
    replace (2 / (knot g (S i) - knot g i) * knot g i + - ((knot g i + knot g (S i)) / 2) * (2 / (knot g (S i) - knot g i))) with (-1)
      by (field; lra).
    replace (2 / (knot g (S i) - knot g i) * knot g (S i) + - ((knot g i + knot g (S i)) / 2) * (2 / (knot g (S i) - knot g i))) with 1
      by (field; lra). exact H.
Qed.

Lemma inner_product c d :
  is_RInt (fun x => cval g c x * cval g d x) (gxmin g) (gxmax g)
    (sumn (gnseg g) (fun i => sumn (glen g) (fun k => cdat c k i * cdat d k i * (2 / (2 * INR k + 1))))).
Proof.
  rewrite xmin_knot, xmax_knot. apply is_RInt_knots; auto. intros i Hi.
  pose proof (knot_lt g Hg i (S i) ltac:(lia)).
  eapply is_RInt_ext_in; [lra| |].
  2:{ apply (is_RInt_segment i (fun t => legval (glen g) (fun k => cdat c k i) t * legval (glen g) (fun k => cdat d k i) t)); auto.
      eapply is_RInt_eq; [apply RInt_legval_prod|]. apply sumn_ext. intros k _. ring. }
  intros x Hx. unfold cval. rewrite (segment_spec g Hg i x) by (auto; try (left; lra); lra).
  simpl. rewrite <- (gnorm_sqr i) by auto. ring.
Qed.
End Int.

Lemma orthonormal_iff g c d v : geom_ok g ->
  (is_RInt (fun x => cval g c x * cval g d x) (gxmin g) (gxmax g) v <->
   sumn (gnseg g) (fun i => sumn (glen g) (fun k => cdat c k i * cdat d k i * (2 / (2 * INR k + 1)))) = v).
Proof.
  intros Hg. pose proof (inner_product g Hg c d) as H. split.
  - intros H'. apply RInt_val in H. apply RInt_val in H'. congruence.
  - intros <-. exact H.
Qed.

(** * Grids *)
Definition pts (alpha : nat) (a b : R) : list R := map (fun j => a + INR j * ((b - a) / INR alpha)) (seq 0 alpha).

Lemma refine_cons a b l alpha : refine_grid (a :: b :: l) alpha = pts alpha a b ++ refine_grid (b :: l) alpha.
Proof. unfold refine_grid. cbn [refine_pairs last]. rewrite <- app_assoc. reflexivity. Qed.

Lemma pts_range alpha a b x : a < b -> In x (pts alpha a b) -> a <= x < b.
Proof.
  intros Hab Hx. apply in_map_iff in Hx as (j & <- & Hj). apply in_seq in Hj.
  assert (Ha : 0 < INR alpha) by (apply lt_0_INR; lia).
  assert (Hj2 : INR j < INR alpha) by (apply lt_INR; lia). pose proof (pos_INR j).
  assert (E : INR j * ((b - a) / INR alpha) = (INR j / INR alpha) * (b - a)) by (field; lra).
  assert (0 <= INR j / INR alpha < 1).
  { split; [apply Rmult_le_pos; [lra|left; apply Rinv_0_lt_compat; lra]|].
    apply (Rmult_lt_reg_r (INR alpha)); auto. unfold Rdiv. rewrite Rmult_assoc, Rinv_l by lra. lra. }
  rewrite E. nra.
Qed.
Lemma pts_sorted alpha a b : a < b -> StronglySorted Rlt (pts alpha a b).
Proof.
  intros Hab. unfold pts. destruct (Nat.eq_dec alpha 0) as [->|Hn]; [constructor|].
  assert (Ha : 0 < INR alpha) by (apply lt_0_INR; lia).
  assert (Hd : 0 < (b - a) / INR alpha) by (apply Rdiv_lt_0_compat; lra).
  generalize alpha at 2 as m. intros m. generalize 0%nat as s. induction m; intros s; simpl; constructor; auto.
  apply Forall_forall. intros x Hx. apply in_map_iff in Hx as (j & <- & Hj). apply in_seq in Hj.
  assert (INR s < INR j) by (apply lt_INR; lia). nra.
Qed.

Lemma last_ge a l : StronglySorted Rlt (a :: l) -> a <= last (a :: l) 0.
Proof.
  revert a. induction l as [|b l IH]; intros a H; [simpl; lra|].
  inversion H as [|? ? H1 H2]; subst. change (last (a :: b :: l) 0) with (last (b :: l) 0).
  specialize (IH b H1). inversion H2; subst. lra.
Qed.

Lemma refine_spec alpha : (0 < alpha)%nat -> forall l a, StronglySorted Rlt (a :: l) ->
  let G := refine_grid (a :: l) alpha in
  StronglySorted Rlt G /\ (forall x, In x G -> a <= x <= last (a :: l) 0) /\ (exists G', G = a :: G') /\
  (forall x, In x G <-> (x = last (a :: l) 0 \/
     exists b c j, adjacent (a :: l) b c /\ (j < alpha)%nat /\ x = b + INR j / INR alpha * (c - b))).
Proof.
  intros Ha. induction l as [|b l IH]; intros a Hs G.
  - subst G. unfold refine_grid. simpl. split; [repeat constructor|].
    split; [intros x [<-|[]]; lra|]. split; [eauto|]. intros x. split.
    + intros [<-|[]]. auto.
    + intros [->|(b & c & j & (l1 & l2 & E) & _)]; auto.
      destruct l1 as [|? [|]]; discriminate.
  - subst G. rewrite refine_cons. inversion Hs as [|? ? Hs' Hf]; subst.
    assert (Hab : a < b) by (inversion Hf; auto).
    destruct (IH b Hs') as (S1 & S2 & (G' & S3) & S4).
    change (last (a :: b :: l) 0) with (last (b :: l) 0).
    split; [|split; [|split]].
    + apply StronglySorted_app; [apply pts_sorted; auto|auto|].
      intros x y Hx Hy. apply pts_range in Hx; auto. apply S2 in Hy. lra.
    + intros x Hx. apply in_app_or in Hx as [Hx|Hx].
      * apply pts_range in Hx; auto. pose proof (last_ge b l Hs'). lra.
      * apply S2 in Hx. lra.
    + unfold pts. destruct alpha; [lia|]. simpl seq. simpl map. rewrite Rmult_0_l, Rplus_0_r. simpl. eauto.
    + intros x. rewrite in_app_iff, S4. split.
      * intros [Hx|[->|(p & q & j & (l1 & l2 & E) & Hj & Hx)]]; auto.
        -- right. apply in_map_iff in Hx as (j & <- & Hj). apply in_seq in Hj. exists a, b, j.
           split; [exists [], l; reflexivity|]. split; [lia|]. field. apply not_0_INR. lia.
        -- right. exists p, q, j. split; [exists (a :: l1), l2; simpl; congruence|]. auto.
      * intros [->|(p & q & j & (l1 & l2 & E) & Hj & Hx)]; auto.
        destruct l1 as [|y l1]; simpl in E.
        -- left. injection E as <- <- _. apply in_map_iff. exists j. split; [|apply in_seq; lia].
           rewrite Hx. field. apply not_0_INR. lia.
        -- injection E as _ E. right. right. exists p, q, j. split; [exists l1, l2; auto|]. auto.
Qed.

Lemma skipn_filter (l : list R) i v : StronglySorted Rlt l -> (i < length l)%nat -> nth i l 0 = v ->
  skipn i l = v :: filter (fun k => Rltb v k) l.
Proof.
  intros H. revert i. induction H as [|a l Hs IH Ha]; intros i Hi Hn; simpl in Hi; [lia|].
  destruct i; simpl in Hn.
  - subst v. simpl. replace (Rltb a a) with false by (symmetry; apply Rltb_false; lra). f_equal.
    clear IH Hs Hi. induction Ha; simpl; auto. replace (Rltb a x) with true by (symmetry; apply Rltb_true; auto). f_equal; auto.
  - simpl. replace (Rltb v a) with false.
    2:{ symmetry. apply Rltb_false. rewrite Forall_forall in Ha.
        pose proof (Ha (nth i l 0) ltac:(apply nth_In; lia)). lra. }
    apply IH; auto. lia.
Qed.

Section Roots.
Variable g : geom.
Hypothesis Hg : geom_ok g.

Lemma xmin_lt_xmax : gxmin g < gxmax g.
Proof. apply (knot_lt g Hg). pose proof (g_nseg g Hg). lia. Qed.
Lemma centre_in : gxmin g < centre g < gxmax g.
Proof. unfold centre. pose proof xmin_lt_xmax. lra. Qed.
Lemma xmid_centre : xmid g = centre g.
Proof. unfold xmid, centre. lra. Qed.

Lemma knots_last : last (gknots g) 0 = gxmax g.
Proof.
  unfold gxmax. pose proof (g_len g Hg) as Hl. replace (gnseg g) with (length (gknots g) - 1)%nat by lia.
  clear Hl. induction (gknots g) as [|a [|b l] IH]; auto.
  change (last (a :: b :: l) 0) with (last (b :: l) 0). rewrite IH. simpl length.
  replace (S (S (length l)) - 1)%nat with (S (S (length l) - 1)) by lia. reflexivity.
Qed.

Lemma filter_last (P : R -> bool) l : l <> [] -> P (last l 0) = true -> last (filter P l) 0 = last l 0.
Proof.
  induction l as [|a [|b l] IH]; intros Hl HP; [congruence| |].
  - simpl in *. rewrite HP. reflexivity.
  - change (last (a :: b :: l) 0) with (last (b :: l) 0) in *.
    assert (E : last (filter P (b :: l)) 0 = last (b :: l) 0) by (apply IH; [discriminate|auto]).
    change (filter P (a :: b :: l)) with (if P a then a :: filter P (b :: l) else filter P (b :: l)).
    destruct (P a); auto.
    assert (Hne : filter P (b :: l) <> []).
    { intros F. assert (Hin : In (last (b :: l) 0) (filter P (b :: l))).
      { apply filter_In. split; auto. apply (@exists_last R) in Hl. clear.
        revert b. induction l as [|c l IH]; intros b; [simpl; auto|].
        change (last (b :: c :: l) 0) with (last (c :: l) 0). right. apply IH. }
      rewrite F in Hin. destruct Hin. }
    destruct (filter P (b :: l)); [congruence|]. exact E.
Qed.

Lemma half_knots_sorted : StronglySorted Rlt (half_knots g).
Proof.
  unfold half_knots. constructor.
  - apply StronglySorted_filter, (g_sorted g Hg).
  - apply Forall_forall. intros x Hx. apply filter_In in Hx as [_ Hx]. apply Rltb_true in Hx. exact Hx.
Qed.
Lemma half_knots_last : last (half_knots g) 0 = gxmax g.
Proof.
  unfold half_knots. pose proof centre_in. pose proof (g_len g Hg).
  assert (E : last (filter (fun k => Rltb (centre g) k) (gknots g)) 0 = gxmax g).
  { rewrite filter_last; [apply knots_last| |rewrite knots_last; apply Rltb_true; lra].
    destruct (gknots g); [simpl in *; lia|discriminate]. }
  destruct (filter _ _) as [|a l] eqn:F; [|rewrite <- E; reflexivity].
  exfalso. assert (Hin : In (gxmax g) (filter (fun k => Rltb (centre g) k) (gknots g))).
  { apply filter_In. split; [unfold gxmax; apply nth_In; lia|apply Rltb_true; lra]. }
  rewrite F in Hin. destruct Hin.
Qed.

Lemma roots_knots_half p : sgeom p = g -> csym (scol p) <> 0 -> roots_knots p = half_knots g.
Proof.
  intros Hp Hs. unfold roots_knots. rewrite Hp.
  replace (Reqb (csym (scol p)) 0) with false by (symmetry; apply Reqb_false; auto).
  rewrite xmid_centre. unfold half_knots. destruct (Reqb _ _) eqn:E; auto.
  apply Reqb_true in E. apply skipn_filter; auto using g_sorted.
  rewrite (g_len g Hg). pose proof (Nat.div_le_upper_bound (gnseg g) 2 (gnseg g)). lia.
Qed.

Lemma find_found f G : StronglySorted Rlt G -> exists rs,
  ends_with (fun fuel => find_all_cont (fun x => x) rsignbit (fun v => Reqb v 0) fuel f G) rs /\ found f G rs.
Proof.
  intros H. destruct (find_all_cont_real f G H) as (rs & H1 & H2 & H3 & H4 & H5).
  exists rs. split; auto. split; auto. split; auto. split; auto.
  intros r Hr. destruct (H5 r Hr) as [|(a & b & Ha & Hb & Hc & _)]; [auto|]. right. exists a, b. auto.
Qed.

Lemma found_range f a G rs : found f (a :: G) rs -> StronglySorted Rlt (a :: G) ->
  forall r, In r rs -> a <= r <= last (a :: G) 0.
Proof.
  intros (_ & _ & _ & H) Hs r Hr.
  assert (Hb : forall x, In x (a :: G) -> a <= x <= last (a :: G) 0).
  { clear H Hr. revert a Hs. induction G as [|b G IH]; intros a Hs x Hx.
    - simpl in *. destruct Hx as [<-|[]]. lra.
    - change (last (a :: b :: G) 0) with (last (b :: G) 0).
      inversion Hs as [|? ? Hs' Hf]; subst. inversion Hf; subst.
      pose proof (last_ge b G Hs'). destruct Hx as [<-|Hx]; [lra|].
      pose proof (IH b Hs' x Hx). lra. }
  destruct (H r Hr) as [[Hin _]|(p & q & (l1 & l2 & E) & _ & Hpq)]; [auto|].
  assert (Hp : In p (a :: G)) by (rewrite E; apply in_or_app; right; left; auto).
  assert (Hq : In q (a :: G)) by (rewrite E; apply in_or_app; right; right; left; auto).
  apply Hb in Hp. apply Hb in Hq. lra.
Qed.

(** The zero at the left end of the grid. *)
Lemma found_head f a G rs : found f (a :: G) rs -> StronglySorted Rlt (a :: G) ->
  (f a = 0 -> exists rs', rs = a :: rs' /\ Forall (fun r => a < r) rs') /\
  (f a <> 0 -> Forall (fun r => a < r) rs).
Proof.
  intros Hf Hs. pose proof (found_range f a G rs Hf Hs) as Hr. destruct Hf as (F1 & F2 & F3 & F4). split.
  - intros H0. assert (Hin : In a rs) by (apply F2; auto; left; auto).
    destruct rs as [|r rs']; [destruct Hin|]. inversion F1 as [|? ? F1' Hall]; subst.
    destruct Hin as [->|Hin]; [eauto|]. exfalso. rewrite Forall_forall in Hall. apply Hall in Hin.
    pose proof (Hr r ltac:(left; auto)). lra.
  - intros H0. apply Forall_forall. intros r Hin. pose proof (Hr r Hin).
    destruct (Req_dec a r) as [->|]; [|lra]. exfalso.
    destruct (F4 r Hin) as [[_ Hz]|(p & q & (l1 & l2 & E) & _ & Hpq)]; [auto|].
    assert (Hp : In p (r :: G)) by (rewrite E; apply in_or_app; right; left; auto).
    destruct Hp as [->|Hp]; [lra|]. inversion Hs as [|? ? _ Hall]; subst. rewrite Forall_forall in Hall. apply Hall in Hp. lra.
Qed.

Definition mirror_list (l : list R) : list R := map (fun r => gxmin g + gxmax g - r) (rev l).

Lemma half_grid alpha : (0 < alpha)%nat -> exists G',
  refine_grid (half_knots g) alpha = centre g :: G' /\ refines alpha (half_knots g) (centre g :: G') /\
  last (centre g :: G') 0 = gxmax g.
Proof.
  intros Ha. destruct (refine_spec alpha Ha _ _ half_knots_sorted) as (S1 & S2 & (G' & S3) & S4).
  fold (half_knots g) in *. exists G'. rewrite S3 in *. split; [reflexivity|]. split; [split; auto|].
  rewrite <- S3. unfold refine_grid. rewrite last_last. apply half_knots_last.
Qed.

Lemma roots_even c alpha : (0 < alpha)%nat -> csym c = 1 ->
  exists G rs, refines alpha (half_knots g) G /\ found (cval g c) G rs /\
    ends_with (fun fuel => roots (fun x => x) fuel (SPoly g c) alpha) (mirror_list rs ++ rs) /\
    Forall (fun r => centre g <= r <= gxmax g) rs /\
    (cval g c (centre g) = 0 -> exists rs', rs = centre g :: rs' /\ Forall (fun r => centre g < r) rs') /\
    (cval g c (centre g) <> 0 -> Forall (fun r => centre g < r) rs).
Proof.
  intros Ha Hc. destruct (half_grid alpha Ha) as (G' & E1 & E2 & E3).
  destruct (find_found (cval g c) (centre g :: G') (proj1 E2)) as (rs & [n Hn] & Hf).
  exists (centre g :: G'), rs. split; auto. split; auto. split; [|split].
  - exists n. intros fuel Hfu. unfold roots. rewrite (roots_knots_half (SPoly g c)) by (simpl; auto; lra).
    cbn [sgeom scol]. rewrite E1, Hn by auto. rewrite Hc.
    replace (Reqb 1 1) with true by (symmetry; apply Reqb_true; auto).
    f_equal. f_equal. unfold mirror_list. apply map_ext. intros; ring.
  - apply Forall_forall. intros r Hr. rewrite <- E3. apply (found_range _ _ _ _ Hf (proj1 E2)); auto.
  - apply (found_head _ _ _ _ Hf (proj1 E2)).
Qed.

Lemma roots_odd c alpha : (0 < alpha)%nat -> csym c = -1 ->
  let fm := cval g c (centre g) in
  let dfm := cval (gderiv 1 g) (cderiv 1 g c) (centre g) in
  exists G rs rs1, refines alpha (half_knots g) G /\ found (cval g c) G rs /\
    ends_with (fun fuel => roots (fun x => x) fuel (SPoly g c) alpha) (mirror_list rs1 ++ centre g :: rs1) /\
    Forall (fun r => centre g < r <= gxmax g) rs1 /\
    (fm = 0 \/ fm * dfm < 0 -> rs1 = tl rs) /\ (fm <> 0 -> 0 <= fm * dfm -> rs1 = rs).
Proof.
  intros Ha Hc fm dfm. destruct (half_grid alpha Ha) as (G' & E1 & E2 & E3).
  destruct (find_found (cval g c) (centre g :: G') (proj1 E2)) as (rs & [n Hn] & Hf).
  destruct (found_head _ _ _ _ Hf (proj1 E2)) as [H0 H1].
  assert (Hr : Forall (fun r => r <= gxmax g) rs).
  { apply Forall_forall. intros r Hr. rewrite <- E3. apply (found_range _ _ _ _ Hf (proj1 E2)); auto. }
  set (rs1 := if Req_EM_T fm 0 then tl rs else if Rlt_dec (fm * dfm) 0 then tl rs else rs).
  exists (centre g :: G'), rs, rs1. split; auto. split; auto. split; [|split; [|split]].
  - exists n. intros fuel Hfu. unfold roots. rewrite (roots_knots_half (SPoly g c)) by (simpl; auto; lra).
    cbn [sgeom scol]. rewrite E1, Hn by auto. rewrite Hc.
    replace (Reqb (-1) 1) with false by (symmetry; apply Reqb_false; lra).
    replace (Reqb (-1) (-1)) with true by (symmetry; apply Reqb_true; auto).
    rewrite xmid_centre. cbn [sderiv sgeom scol].
    match goal with |- Some (map _ (rev ?X) ++ _ :: ?X) = _ => assert (E : X = rs1) end.
    { destruct rs as [|r rest].
      - subst rs1. destruct (Req_EM_T fm 0); [destruct (H0 e) as (? & ? & _); discriminate|].
        destruct (Rlt_dec _ _); reflexivity.
      - subst rs1. fold fm dfm. destruct (Req_EM_T fm 0) as [e|ne].
        + destruct (H0 e) as (? & [= -> ->] & _).
          replace (Reqb (centre g) (centre g)) with true by (symmetry; apply Reqb_true; auto). reflexivity.
        + specialize (H1 ne). inversion H1; subst.
          replace (Reqb r (centre g)) with false by (symmetry; apply Reqb_false; lra). simpl.
          unfold Rltb. destruct (Rlt_dec (fm * dfm) 0); reflexivity. }
    rewrite E. f_equal. f_equal. unfold mirror_list. apply map_ext. intros; ring.
  - assert (Hgt : Forall (fun r => centre g < r) rs1).
    { subst rs1. destruct (Req_EM_T fm 0) as [e|ne].
      - destruct (H0 e) as (rs' & -> & H). exact H.
      - specialize (H1 ne). destruct (Rlt_dec _ _); auto. inversion H1; subst; simpl; auto. }
    assert (Hle : Forall (fun r => r <= gxmax g) rs1).
    { subst rs1. destruct (Req_EM_T fm 0); [|destruct (Rlt_dec _ _)]; auto; inversion Hr; subst; simpl; auto. }
    rewrite Forall_forall in *. intros r Hin. split; auto.
  - intros [H|H]; subst rs1; destruct (Req_EM_T fm 0); auto; [contradiction|]. destruct (Rlt_dec _ _); auto. contradiction.
  - intros Hne Hge. subst rs1. destruct (Req_EM_T fm 0); [contradiction|]. destruct (Rlt_dec _ _); auto. lra.
Qed.

Lemma roots_none c alpha : (0 < alpha)%nat -> csym c = 0 ->
  exists G rs, refines alpha (gknots g) G /\ found (cval g c) G rs /\
    ends_with (fun fuel => roots (fun x => x) fuel (SPoly g c) alpha) rs /\
    Forall (fun r => gxmin g <= r <= gxmax g) rs.
Proof.
  intros Ha Hc. pose proof (g_len g Hg) as Hl. pose proof (g_sorted g Hg) as Hs. pose proof knots_last as Hla.
  assert (Hmin : gxmin g = nth 0 (gknots g) 0) by reflexivity.
  destruct (gknots g) as [|a l] eqn:Ek; [simpl in Hl; lia|]. simpl in Hmin.
  destruct (refine_spec alpha Ha _ _ Hs) as (S1 & S2 & (G' & S3) & S4).
  destruct (find_found (cval g c) (refine_grid (a :: l) alpha) S1) as (rs & [n Hn] & Hf).
  exists (refine_grid (a :: l) alpha), rs. split; [split; auto|]. split; auto. split.
  - exists n. intros fuel Hfu. unfold roots, roots_knots. cbn [sgeom scol]. rewrite Hc.
    replace (Reqb 0 0) with true by (symmetry; apply Reqb_true; auto). rewrite Ek, Hn by auto.
    replace (Reqb 0 1) with false by (symmetry; apply Reqb_false; lra).
    replace (Reqb 0 (-1)) with false by (symmetry; apply Reqb_false; lra). reflexivity.
  - apply Forall_forall. intros r Hr. rewrite S3 in *. rewrite Hmin, <- Hla.
    assert (Elast : last (a :: G') 0 = last (a :: l) 0).
    { rewrite <- S3. unfold refine_grid. apply last_last. }
    rewrite <- Elast. apply (found_range _ _ _ _ Hf S1); auto.
Qed.

(** Consequences: symmetry of the returned list and multiplicity of the centre. *)
Lemma mirror_invol l : mirror_list (mirror_list l) = l.
Proof.
  unfold mirror_list. rewrite <- map_rev, rev_involutive, map_map.
  rewrite (map_ext _ (fun r => r)) by (intros; ring). apply map_id.
Qed.
Lemma mirror_app l m : mirror_list (l ++ m) = mirror_list m ++ mirror_list l.
Proof. unfold mirror_list. rewrite rev_app_distr, map_app. reflexivity. Qed.
Lemma mirror_centre l : mirror_list (centre g :: l) = mirror_list l ++ [centre g].
Proof. unfold mirror_list. simpl. rewrite map_app. simpl. f_equal. f_equal. unfold centre. field. Qed.
End Roots.
