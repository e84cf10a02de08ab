(** Collected statements and concrete polynomials for Props/PPoly.v. *)
From Coq Require Import Reals ZArith Arith Bool Lra Lia Psatz.
From Coquelicot Require Import Coquelicot.
From Coq Require Import List Sorting.Sorted.
From Verif.Model Require Import Base Num Roots Poly.
From Verif.Spec Require Import SRoots SPoly.
From Verif.Proofs Require Import BaseFacts SumFacts IntFacts LegFacts PPolyFacts PPolyInt.
Import ListNotations.
Open Scope R_scope.
Arguments legP : simpl never.

Lemma lookup g x : geom_ok g ->
  (gxmin g <= x <= gxmax g ->
   exists i t, split g x = Ok (i, t) /\ (i < gnseg g)%nat /\ knot g i <= x <= knot g (S i) /\
    (x < knot g (S i) \/ (S i = gnseg g /\ x = gxmax g)) /\
    -1 <= t <= 1 /\ x = (knot g i + knot g (S i)) / 2 + t * ((knot g (S i) - knot g i) / 2)) /\
  (~ (gxmin g <= x <= gxmax g) -> split g x = Raise ValueError).
Proof.
  intros Hg. split; [apply split_spec; auto|]. intros H. apply split_out.
  destruct (Rlt_dec x (gxmin g)); [auto|]. destruct (Rlt_dec (gxmax g) x); [auto|]. exfalso. apply H. lra.
Qed.

Lemma evaluation p x i : geom_ok (sgeom p) -> (0 < glen (sgeom p))%nat -> (i < gnseg (sgeom p))%nat ->
  knot (sgeom p) i <= x ->
  (x < knot (sgeom p) (S i) \/ (S i = gnseg (sgeom p) /\ x = gxmax (sgeom p))) ->
  scall p x = Ok (seg_fun (sgeom p) (scol p) i x).
Proof.
  intros Hg Hl Hi H1 H2. destruct p as [g c]. simpl in *. rewrite scall_ok; auto.
  - f_equal. apply cval_seg; auto.
  - rewrite (xmin_knot g), (xmax_knot g). pose proof (knot_le g Hg 0 i ltac:(lia)).
    split; [lra|]. destruct H2 as [H2|[H2 ->]]; [|rewrite (xmax_knot g); lra].
    pose proof (knot_le g Hg (S i) (gnseg g) ltac:(lia)). lra.
Qed.
Lemma evaluation_outside p x : ~ (gxmin (sgeom p) <= x <= gxmax (sgeom p)) -> scall p x = Raise ValueError.
Proof.
  intros H. unfold scall. rewrite split_out; auto.
  destruct (Rlt_dec x (gxmin (sgeom p))); [auto|]. destruct (Rlt_dec (gxmax (sgeom p)) x); [auto|]. exfalso. apply H. lra.
Qed.

Lemma construction order nseg dat knots symm :
  (0 < nseg)%nat -> length knots = S nseg ->
  (match symm with None => True | Some s => length s = length dat end) ->
  (StronglySorted Rlt knots ->
   exists p, poly_init order nseg dat knots None symm = Ok p /\ geom_ok (vgeom p) /\
     gknots (vgeom p) = knots /\ length (vcols p) = length dat) /\
  ((exists i, (S i < length knots)%nat /\ nth (S i) knots 0 < nth i knots 0) ->
   poly_init order nseg dat knots None symm = Raise ValueError).
Proof.
  intros Hn Hl Hs. split.
  - intros Hk. destruct (poly_init_some order nseg dat knots symm Hl) as (p & Hp & Hc); auto.
    + intros i Hi. apply sorted_nth_le; auto. lia.
    + exists p. destruct (poly_init_ok _ _ _ _ _ _ Hp Hn Hk) as (G1 & G2 & _). auto.
  - intros (i & Hi & H). eapply poly_init_decreasing; eauto.
Qed.

(** Columns of a vectorised evaluation. *)
Lemma vectorised p xs M : geom_ok (vgeom p) -> (0 < glen (vgeom p))%nat -> vcall_arr p xs = Ok M ->
  length M = length (vcols p) /\
  (forall l m row x, nth_error M l = Some row -> nth_error xs m = Some x ->
     exists v, nth_error row m = Some v /\ value p (Z.of_nat l) x = Ok v).
Proof.
  intros Hg Hl H. apply vcall_arr_ok in H as [F ->]; auto. rewrite map_length. split; auto.
  intros l m row x Hrow Hx. rewrite nth_error_map in Hrow. destruct (nth_error (vcols p) l) as [c|] eqn:Ec; [|discriminate].
  simpl in Hrow. injection Hrow as <-. exists (cval (vgeom p) c x).
  split; [rewrite nth_error_map, Hx; reflexivity|].
  apply value_item. unfold getitem, pyindex.
  assert (Hlt : (l < length (vcols p))%nat) by (apply nth_error_Some; congruence).
  rewrite (proj2 (andb_true_iff _ _)) by (split; [apply Z.leb_le|apply Z.ltb_lt]; lia).
  destruct (Z.ltb_spec (Z.of_nat l) 0); [lia|]. rewrite Nat2Z.id, Ec. simpl.
  apply scall_ok; auto. rewrite Forall_forall in F. apply F. eapply nth_error_In; eauto.
Qed.
Lemma vectorised_raises p xs : geom_ok (vgeom p) -> (0 < glen (vgeom p))%nat ->
  ((exists M, vcall_arr p xs = Ok M) <-> Forall (fun x => gxmin (vgeom p) <= x <= gxmax (vgeom p)) xs).
Proof.
  intros Hg Hl. split.
  - intros [M H]. apply vcall_arr_ok in H; tauto.
  - intros F. eexists. apply vcall_arr_ok; eauto.
Qed.

(** Counting in the mirrored lists. *)
Lemma count_none v l : Forall (fun r => v < r) l -> count_occ Req_EM_T l v = 0%nat.
Proof. induction 1; simpl; auto. destruct (Req_EM_T x v); [lra|auto]. Qed.
Lemma count_mirror g v l : Forall (fun r => v < r) l -> gxmin g + gxmax g = 2 * v -> count_occ Req_EM_T (mirror_list g l) v = 0%nat.
Proof.
  intros H E. unfold mirror_list. apply count_occ_not_In. intros Hin. apply in_map_iff in Hin as (r & Hr & Hin).
  apply in_rev in Hin. rewrite Forall_forall in H. apply H in Hin. lra.
Qed.
Lemma two_centre g : gxmin g + gxmax g = 2 * centre g.
Proof. unfold centre. lra. Qed.
Lemma mirror_range g l : geom_ok g -> Forall (fun r => centre g <= r <= gxmax g) l ->
  Forall (fun r => gxmin g <= r <= centre g) (mirror_list g l).
Proof.
  intros Hg H. unfold mirror_list. rewrite Forall_map. apply Forall_rev. eapply Forall_impl; [|exact H].
  simpl. intros r Hr. pose proof (two_centre g). lra.
Qed.

Lemma even_roots g c alpha : geom_ok g -> (0 < alpha)%nat -> csym c = 1 ->
  exists L G rs,
    ends_with (fun fuel => roots (fun x => x) fuel (SPoly g c) alpha) L /\
    L = map (fun r => gxmin g + gxmax g - r) (rev L) /\
    Forall (fun r => gxmin g <= r <= gxmax g) L /\
    refines alpha (half_knots g) G /\ found (cval g c) G rs /\
    L = map (fun r => gxmin g + gxmax g - r) (rev rs) ++ rs /\
    count_occ Req_EM_T L (centre g) = if Req_EM_T (cval g c (centre g)) 0 then 2%nat else 0%nat.
Proof.
  intros Hg Ha Hc. destruct (roots_even g Hg c alpha Ha Hc) as (G & rs & H1 & H2 & H3 & H4 & H5 & H6).
  exists (mirror_list g rs ++ rs), G, rs. split; auto. split; [|split; [|split; [|split; [|split]]]]; auto.
  - change (mirror_list g rs ++ rs = mirror_list g (mirror_list g rs ++ rs)).
    rewrite mirror_app, mirror_invol; auto.
  - pose proof (xmin_lt_xmax g Hg). pose proof (two_centre g). apply Forall_app. split.
    + eapply Forall_impl; [|apply mirror_range; eauto]. simpl. intros; lra.
    + eapply Forall_impl; [|exact H4]. simpl. intros; lra.
  - rewrite count_occ_app. destruct (Req_EM_T _ _) as [e|ne].
    + destruct (H5 e) as (rs' & -> & Hgt). rewrite mirror_centre, count_occ_app. simpl.
      rewrite (count_mirror g _ rs' Hgt (two_centre g)), (count_none _ _ Hgt).
      destruct (Req_EM_T (centre g) (centre g)); [reflexivity|congruence].
    + rewrite (count_mirror g _ rs (H6 ne) (two_centre g)), (count_none _ _ (H6 ne)). reflexivity.
Qed.

Lemma odd_roots g c alpha : geom_ok g -> (0 < alpha)%nat -> csym c = -1 ->
  let fm := cval g c (centre g) in
  let dfm := cval (gderiv 1 g) (cderiv 1 g c) (centre g) in
  exists L G rs rs1,
    ends_with (fun fuel => roots (fun x => x) fuel (SPoly g c) alpha) L /\
    L = map (fun r => gxmin g + gxmax g - r) (rev L) /\
    Forall (fun r => gxmin g <= r <= gxmax g) L /\
    StronglySorted Rlt L /\
    refines alpha (half_knots g) G /\ found (cval g c) G rs /\
    L = map (fun r => gxmin g + gxmax g - r) (rev rs1) ++ centre g :: rs1 /\
    (fm = 0 \/ fm * dfm < 0 -> rs1 = tl rs) /\ (fm <> 0 -> 0 <= fm * dfm -> rs1 = rs) /\
    count_occ Req_EM_T L (centre g) = 1%nat.
Proof.
  intros Hg Ha Hc fm dfm. destruct (roots_odd g Hg c alpha Ha Hc) as (G & rs & rs1 & H1 & H2 & H3 & H4 & H5 & H6).
  exists (mirror_list g rs1 ++ centre g :: rs1), G, rs, rs1. split; auto.
  assert (Hgt : Forall (fun r => centre g < r) rs1) by (eapply Forall_impl; [|exact H4]; simpl; intros; lra).
  assert (Hle : Forall (fun r => centre g <= r <= gxmax g) rs1) by (eapply Forall_impl; [|exact H4]; simpl; intros; lra).
  pose proof (xmin_lt_xmax g Hg) as Hm. pose proof (two_centre g) as Ht.
  assert (Hs1 : StronglySorted Rlt rs1).
  { destruct H2 as (Hs & _). destruct (Req_dec fm 0) as [e|ne].
    - rewrite (H5 (or_introl e)). inversion Hs; subst; simpl; auto.
    - destruct (Rlt_dec (fm * dfm) 0) as [l|nl].
      + rewrite (H5 (or_intror l)). inversion Hs; subst; simpl; auto.
      + rewrite (H6 ne (Rnot_lt_le _ _ nl)). auto. }
  split; [|split; [|split; [|split; [|split; [|split; [|split; [|split]]]]]]]; auto.
  - change (mirror_list g rs1 ++ centre g :: rs1 = mirror_list g (mirror_list g rs1 ++ centre g :: rs1)).
    rewrite mirror_app, mirror_invol, mirror_centre, <- app_assoc by auto. reflexivity.
  - apply Forall_app. split; [|constructor].
    + eapply Forall_impl; [|apply mirror_range; eauto]. simpl. intros; lra.
    + lra.
    + eapply Forall_impl; [|exact H4]. simpl. intros; lra.
  - apply StronglySorted_app.
    + unfold mirror_list. apply (StronglySorted_map Rgt); [intros; lra|].
      eapply StronglySorted_rev; [|exact Hs1]. intros; lra.
    + constructor; auto.
    + intros x y Hx Hy.
      assert (Hx' : x < centre g).
      { unfold mirror_list in Hx. apply in_map_iff in Hx as (r & <- & Hr). apply in_rev in Hr.
        rewrite Forall_forall in Hgt. apply Hgt in Hr. lra. }
      destruct Hy as [<-|Hy]; auto. rewrite Forall_forall in Hgt. apply Hgt in Hy. lra.
  - rewrite count_occ_app. rewrite (count_mirror g _ rs1 Hgt Ht). simpl.
    rewrite (count_none _ _ Hgt). destruct (Req_EM_T (centre g) (centre g)); [reflexivity|congruence].
Qed.

(** * Concrete polynomials *)
Definition ex_geom : geom := Geom 3 3 2 [-1; 0; 2] [1; 2].
Lemma ex_geom_ok : geom_ok ex_geom.
Proof.
  unfold geom_ok, ex_geom. simpl. split; [lia|]. split; [reflexivity|]. split; [repeat constructor; lra|].
  split; [reflexivity|]. intros [|[|i]] Hi; [simpl; lra|simpl; lra|lia].
Qed.
Definition unit_geom : geom := Geom 3 3 1 [-1; 1] [2].
Lemma unit_geom_ok : geom_ok unit_geom.
Proof.
  unfold geom_ok, unit_geom. simpl. split; [lia|]. split; [reflexivity|]. split; [repeat constructor; lra|].
  split; [reflexivity|]. intros [|i] Hi; [simpl; lra|lia].
Qed.
(** x^2 on [-1, 1], declared even. *)
Definition square_col : col := Col (fun k _ => match k with O => 1 / 3 | S (S O) => 2 / 3 | _ => 0 end) 1.
Lemma square_value x : -1 <= x <= 1 -> cval unit_geom square_col x = x ^ 2.
Proof.
  intros Hx. rewrite (cval_seg unit_geom unit_geom_ok square_col 0).
  - unfold seg_fun, knot, unit_geom. simpl. rewrite legP_SS, legP_0, legP_1. simpl.
    replace (2 / (1 - -1)) with 1 by field. rewrite sqrt_1. field.
  - simpl. lia.
  - unfold knot. simpl. lra.
  - unfold knot, gxmax. simpl. destruct (Rlt_dec x 1); [auto|]. right. split; [auto|lra].
Qed.
Lemma square_parity x : -1 <= x <= 1 -> cval unit_geom square_col (-1 + 1 - x) = 1 * cval unit_geom square_col x.
Proof. intros. rewrite !square_value by lra. ring. Qed.
Lemma square_centre : cval unit_geom square_col (centre unit_geom) = 0.
Proof.
  unfold centre, gxmin, gxmax. simpl. rewrite square_value by lra. field.
Qed.
(** x on [-1, 1], declared odd. *)
Definition line_col : col := Col (fun k _ => match k with S O => 1 | _ => 0 end) (-1).

Lemma call_of_deriv g c m x : geom_ok g -> (0 < glen g)%nat -> gxmin g <= x <= gxmax g ->
  scall (SPoly g c) x = Ok (cval g c x) /\
  scall (sderiv m (SPoly g c)) x = Ok (cval (gderiv m g) (cderiv m g c) x).
Proof.
  intros Hg Hl Hx. split; [apply scall_ok; auto|]. unfold sderiv. simpl. apply scall_ok; auto.
  simpl. unfold legder_len. destruct m; simpl; auto. unfold legder1_len at 1. lia.
Qed.
Lemma stored_parity g c m : csym (cderiv m g c) = (-1) ^ m * csym c.
Proof. reflexivity. Qed.

Lemma roots_repeated : exists g c L, geom_ok g /\ csym c = 1 /\ (forall x, -1 <= x <= 1 -> cval g c x = x ^ 2) /\
    ends_with (fun fuel => roots (fun x => x) fuel (SPoly g c) 2) L /\ ~ NoDup L.
Proof.
  destruct (even_roots unit_geom square_col 2 unit_geom_ok ltac:(lia) eq_refl) as (L & G & rs & H1 & _ & _ & _ & _ & _ & H2).
  exists unit_geom, square_col, L. split; [apply unit_geom_ok|]. split; [reflexivity|]. split; [apply square_value|].
  split; auto. intros Hn. rewrite (NoDup_count_occ Req_EM_T) in Hn. specialize (Hn (centre unit_geom)).
  rewrite H2 in Hn. destruct (Req_EM_T _ _) as [_|ne]; [lia|]. apply ne, square_centre.
Qed.

Lemma orthonormal_set p : geom_ok (vgeom p) ->
  ((forall l m c d, nth_error (vcols p) l = Some c -> nth_error (vcols p) m = Some d ->
      is_RInt (fun x => cval (vgeom p) c x * cval (vgeom p) d x) (gxmin (vgeom p)) (gxmax (vgeom p))
              (if Nat.eqb l m then 1 else 0)) <->
   (forall l m c d, nth_error (vcols p) l = Some c -> nth_error (vcols p) m = Some d ->
      sumn (gnseg (vgeom p)) (fun i => sumn (glen (vgeom p)) (fun k =>
        cdat c k i * cdat d k i * (2 / (2 * INR k + 1)))) = if Nat.eqb l m then 1 else 0)).
Proof.
  intros Hg. split; intros H l m c d Hc Hd; specialize (H l m c d Hc Hd); apply orthonormal_iff; auto.
Qed.
