(** Default sampling points in imaginary time and real frequency. *)
From Coq Require Import Reals ZArith Arith Bool Lra Lia String Ascii.
From Coquelicot Require Import Coquelicot.
From Coq Require Import List Sorting.Sorted Permutation.
From Verif.Model Require Import Base Util Num Roots Poly FT SVE Basis.
From Verif.Spec Require Import SRoots SPoly SFT SSVE SBasis.
From Verif.Proofs Require Import BaseFacts UtilFacts SumFacts IntFacts RootsFacts PPolyFacts PPolyInt PPolyExamples SVEFacts FTFacts FTCall FTProps
  BasisFacts BasisInit BasisProps BasisOps BasisPhys.
Import ListNotations.
Open Scope R_scope.
Notation length := List.length.

Lemma adjacent_gap G a b x : StronglySorted Rlt G -> adjacent G a b -> In x G -> x <= a \/ b <= x.
Proof.
  intros Hs (l1 & l2 & ->) Hx. apply StronglySorted_app_inv in Hs as (_ & H2 & H3).
  apply in_app_or in Hx as [Hx|[<-|[<-|Hx]]]; try (left; lra); try (right; lra).
  - left. apply Rlt_le, H3; auto. left; auto.
  - apply StronglySorted_inv in H2 as [H2 _]. apply StronglySorted_inv in H2 as [_ H2].
    rewrite Forall_forall in H2. right. apply Rlt_le, H2; auto.
Qed.

Lemma found_not f G rs x : StronglySorted Rlt G -> found f G rs -> In x G -> f x <> 0 -> ~ In x rs.
Proof.
  intros Hs (_ & _ & _ & H) Hx Hf Hin. destruct (H x Hin) as [[_ H0]|(a & b & Ha & _ & Hab)]; [auto|].
  destruct (adjacent_gap G a b x Hs Ha Hx); lra.
Qed.

Section RootsGood.
Variable g : geom.
Hypothesis Hg : geom_ok g.

Lemma roots_good c : (csym c = 0 \/ csym c = 1 \/ csym c = -1) -> (csym c = 1 -> cval g c (centre g) <> 0) ->
  exists L, ends_with (fun fuel => roots (fun x => x) fuel (SPoly g c) 2) L /\ StronglySorted Rlt L /\
    Forall (fun r => gxmin g <= r <= gxmax g) L /\
    (cval g c (gxmin g) <> 0 -> cval g c (gxmax g) <> 0 -> Forall (fun r => gxmin g < r < gxmax g) L).
Proof.
  intros Hc H1. pose proof (xmin_lt_xmax g Hg) as Hm. pose proof (two_centre g) as Ht.
  pose proof (centre_in g Hg) as Hci.
  assert (Hlast : forall G, refines 2 (half_knots g) G -> In (gxmax g) G).
  { intros G (_ & HG). apply HG. left. symmetry. apply half_knots_last. auto. }
  destruct Hc as [Hc|[Hc|Hc]].
  - destruct (roots_none g Hg c 2 ltac:(lia) Hc) as (G & rs & HG & Hf & He & Hr).
    exists rs. split; auto. split; [apply (proj1 Hf)|]. split; auto. intros Z1 Z2.
    assert (G1 : In (gxmin g) G).
    { apply (proj2 HG). right. destruct Hg as (A & B & _). unfold gxmin.
      destruct (gknots g) as [|a [|b l]] eqn:E; simpl in B; try lia.
      exists a, b, 0%nat. split; [exists [], l; auto|]. split; [lia|]. simpl. lra. }
    assert (G2 : In (gxmax g) G).
    { apply (proj2 HG). left. symmetry. apply knots_last. auto. }
    rewrite Forall_forall in *. intros r Hin. pose proof (Hr r Hin).
    assert (r <> gxmin g) by (intros ->; apply (found_not _ _ _ _ (proj1 HG) Hf G1 Z1); auto).
    assert (r <> gxmax g) by (intros ->; apply (found_not _ _ _ _ (proj1 HG) Hf G2 Z2); auto).
    lra.
  - destruct (roots_even g Hg c 2 ltac:(lia) Hc) as (G & rs & HG & Hf & He & Hr & _ & H0).
    specialize (H0 (H1 Hc)). exists (mirror_list g rs ++ rs). split; auto.
    assert (Hmir : forall x, In x (mirror_list g rs) -> exists r, In r rs /\ x = gxmin g + gxmax g - r).
    { intros x Hx. unfold mirror_list in Hx. apply in_map_iff in Hx as (r & <- & Hin). apply in_rev in Hin. eauto. }
    rewrite Forall_forall in Hr, H0. split; [|split].
    + apply StronglySorted_app.
      * unfold mirror_list. apply (StronglySorted_map Rgt); [intros; lra|].
        eapply StronglySorted_rev; [|exact (proj1 Hf)]. intros; lra.
      * apply (proj1 Hf).
      * intros x y Hx Hy. destruct (Hmir x Hx) as (r & Hin & ->). pose proof (H0 r Hin). pose proof (H0 y Hy). lra.
    + apply Forall_forall. intros x Hx. apply in_app_or in Hx as [Hx|Hx].
      * destruct (Hmir x Hx) as (r & Hin & ->). pose proof (Hr r Hin). lra.
      * pose proof (Hr x Hx). lra.
    + intros _ Z2. pose proof (found_not _ _ _ _ (proj1 HG) Hf (Hlast G HG) Z2) as Hn.
      apply Forall_forall. intros x Hx. apply in_app_or in Hx as [Hx|Hx].
      * destruct (Hmir x Hx) as (r & Hin & ->). pose proof (Hr r Hin).
        assert (r <> gxmax g) by (intros ->; auto). lra.
      * pose proof (Hr x Hx). assert (x <> gxmax g) by (intros ->; auto). lra.
  - destruct (odd_roots g c 2 Hg ltac:(lia) Hc) as (L & G & rs & rs1 & He & Hsym & Hr & Hs & HG & Hf & HL & H2 & H3 & _).
    exists L. split; auto. split; auto. split; auto. intros _ Z2.
    pose proof (found_not _ _ _ _ (proj1 HG) Hf (Hlast G HG) Z2) as Hn.
    assert (Hsub : forall r, In r rs1 -> In r rs).
    { intros r Hin. destruct (Req_dec (cval g c (centre g)) 0) as [e|ne].
      - rewrite (H2 (or_introl e)) in Hin. destruct rs; auto. right; auto.
      - destruct (Rlt_dec (cval g c (centre g) * cval (gderiv 1 g) (cderiv 1 g c) (centre g)) 0) as [l|nl].
        + rewrite (H2 (or_intror l)) in Hin. destruct rs; auto. right; auto.
        + rewrite (H3 ne ltac:(lra)) in Hin. auto. }
    assert (Hn1 : ~ In (gxmax g) rs1) by auto.
    assert (Hpos : forall r, In r rs1 -> centre g < r).
    { intros r Hin. rewrite HL in Hs. apply StronglySorted_app_inv in Hs as (_ & Hs & _).
      apply StronglySorted_inv in Hs as [_ Hs]. rewrite Forall_forall in Hs. auto. }
    assert (Hmax : ~ In (gxmax g) L).
    { rewrite HL. intros Hin. apply in_app_or in Hin as [Hin|[Hin|Hin]]; auto; [|lra].
      apply in_map_iff in Hin as (r & E & Hin). apply in_rev in Hin. apply Hpos in Hin. lra. }
    assert (Hmin : ~ In (gxmin g) L).
    { intros Hin. apply Hmax. rewrite Hsym. apply in_map_iff. exists (gxmin g). split; [ring|]. apply in_rev. rewrite rev_involutive. auto. }
    rewrite Forall_forall in *. intros x Hx. pose proof (Hr x Hx).
    assert (x <> gxmin g) by (intros ->; auto). assert (x <> gxmax g) by (intros ->; auto). lra.
Qed.
End RootsGood.

Lemma points_good u n p : geom_ok (vgeom u) -> (0 < glen (vgeom u))%nat -> gxmin (vgeom u) = -1 -> gxmax (vgeom u) = 1 ->
  points_source u n p -> regular p -> ((length (vcols u) <= n)%nat -> nonzero_ends p) ->
  exists pts w, ends_with (fun fuel => default_sampling_points (fun x => x) fuel u (Z.of_nat n)) (Ok (pts, w)) /\
    StronglySorted Rlt pts /\ Forall (fun x => -1 <= x <= 1) pts /\
    (nonzero_ends p -> Forall (fun x => -1 < x < 1) pts) /\ (w = true <-> length pts <> n).
Proof.
  intros Hg Hl X1 X2 Hp (Hc & H0) Hne.
  assert (Hw : forall pts : list R, negb (Z.of_nat (length pts) =? Z.of_nat n)%Z = true <-> length pts <> n).
  { intros pts. rewrite negb_true_iff, Z.eqb_neq. lia. }
  assert (Hcen : centre (vgeom u) = 0) by (unfold centre; rewrite X1, X2; field).
  unfold points_source in Hp. unfold default_sampling_points. rewrite X1, X2.
  rewrite (proj2 (Reqb_true (-1) (-1))), (proj2 (Reqb_true 1 1)) by auto. cbn [negb orb].
  destruct (n <? length (vcols u))%nat eqn:En; [apply Nat.ltb_lt in En|apply Nat.ltb_ge in En].
  - rewrite (proj2 (Z.ltb_lt _ _)) by lia. rewrite Hp.
    assert (Eg : sgeom p = vgeom u).
    { unfold getitem in Hp. destruct (pyindex _ _); [|discriminate]. injection Hp as <-. reflexivity. }
    destruct p as [g c]. cbn [sgeom scol] in *. subst g.
    assert (Hv : forall x, -1 <= x <= 1 -> scall (SPoly (vgeom u) c) x = Ok (cval (vgeom u) c x)).
    { intros x Hx. apply scall_ok; auto; rewrite ?X1, ?X2; auto. }
    destruct (roots_good (vgeom u) Hg c Hc) as (L & [m Hm] & Hs & Hr & Hin).
    { intros Hc1 E. apply (H0 Hc1). rewrite Hv by lra. f_equal. rewrite Hcen in E. exact E. }
    exists L, (negb (Z.of_nat (length L) =? Z.of_nat n)%Z). split; [|split; [|split; [|split]]]; auto.
    + exists m. intros fuel Hf. rewrite Hm; auto.
    + rewrite X1, X2 in Hr. auto.
    + intros (Z1 & Z2). rewrite Hv in Z1, Z2 by lra. rewrite X1, X2 in Hin. apply Hin; intros E; [apply Z1|apply Z2]; rewrite E; auto.
  - rewrite (proj2 (Z.ltb_ge _ _)) by lia. destruct Hp as (q & Hq & ->). rewrite Hq.
    assert (Eg : sgeom q = vgeom u).
    { unfold getitem in Hq. destruct (pyindex _ _); [|discriminate]. injection Hq as <-. reflexivity. }
    destruct q as [g c]. cbn [sgeom scol] in *. subst g. unfold sderiv in *. cbn [sgeom scol] in *.
    set (g' := gderiv 1 (vgeom u)) in *. set (c' := cderiv 1 (vgeom u) c) in *.
    assert (Hg' : geom_ok g') by exact Hg.
    assert (Hv : forall x, -1 <= x <= 1 -> scall (SPoly g' c') x = Ok (cval g' c' x)).
    { intros x Hx. apply (call_of_deriv (vgeom u) c 1); auto; rewrite ?X1, ?X2; auto. }
    specialize (Hne En). destruct Hne as [Z1 Z2].
    destruct (roots_good g' Hg' c' Hc) as (L & [m Hm] & Hs & Hr & Hin).
    { intros Hc1 E. apply (H0 Hc1). rewrite Hv by lra. change (centre g') with (centre (vgeom u)) in E. f_equal. rewrite Hcen in E. exact E. }
    change (gxmin g') with (gxmin (vgeom u)) in *. change (gxmax g') with (gxmax (vgeom u)) in *.
    rewrite X1, X2 in *. assert (Hin' : Forall (fun r => -1 < r < 1) L).
    { apply Hin; intros E; [apply Z1|apply Z2]; rewrite Hv by lra; rewrite E; auto. }
    set (pts := map (fun m => / 2 * (m + -1)) (firstn 1 L) ++ L ++ map (fun m => / 2 * (m + 1)) (firstn 1 (rev L))).
    assert (HP : StronglySorted Rlt pts /\ Forall (fun x => -1 < x < 1) pts).
    { unfold pts. destruct L as [|a L0] eqn:EL; [simpl; split; constructor|]. rewrite <- EL in *.
      assert (E1 : firstn 1 L = [a]) by (rewrite EL; auto). rewrite E1.
      destruct (rev L) as [|z Lr] eqn:Er.
      { apply (f_equal (@rev R)) in Er. rewrite rev_involutive in Er. rewrite EL in Er. discriminate. }
      assert (E2 : L = rev Lr ++ [z]) by (rewrite <- (rev_involutive L), Er; auto). cbn [firstn map].
      rewrite Forall_forall in Hin'.
      assert (Ha : In a L) by (rewrite EL; left; auto).
      assert (Hz : In z L) by (rewrite E2; apply in_or_app; right; left; auto).
      pose proof (Hin' a Ha) as Ra. pose proof (Hin' z Hz) as Rz.
      assert (Hal : forall x, In x L -> a <= x).
      { intros x Hx. rewrite EL in Hx, Hs. destruct Hx as [<-|Hx]; [lra|].
        apply StronglySorted_inv in Hs as [_ Hs]. rewrite Forall_forall in Hs. apply Rlt_le; auto. }
      assert (Hzl : forall x, In x L -> x <= z).
      { intros x Hx. rewrite E2 in Hx, Hs. apply StronglySorted_app_inv in Hs as (_ & _ & Hs).
        apply in_app_or in Hx as [Hx|[<-|[]]]; [|lra]. apply Rlt_le, Hs; auto. left; auto. }
      split.
      - apply StronglySorted_app; [repeat constructor| |].
        + apply StronglySorted_app; [auto|repeat constructor|]. intros x y Hx [<-|[]]. pose proof (Hzl x Hx). lra.
        + intros x y [<-|[]] Hy. apply in_app_or in Hy as [Hy|[<-|[]]].
          * pose proof (Hal y Hy). lra.
          * pose proof (Hal z Hz). lra.
      - apply Forall_forall. intros x Hx. apply in_app_or in Hx as [[<-|[]]|Hx]; [lra|].
        apply in_app_or in Hx as [Hx|[<-|[]]]; [auto|lra]. }
    destruct HP as [HP1 HP2].
    exists pts, (negb (Z.of_nat (length pts) =? Z.of_nat n)%Z). split; [|split; [|split; [|split]]]; auto.
    + exists m. intros fuel Hf. rewrite Hm; auto.
    + eapply Forall_impl; [|exact HP2]. simpl; intros; lra.
Qed.

Lemma scale_good (f : R -> R) run pts w a b u : 0 < u -> (forall x, f x = u * (x + 1) + a) -> f 1 = b ->
  ends_with run (Ok (pts, w)) -> StronglySorted Rlt pts -> Forall (fun x => -1 <= x <= 1) pts ->
  ends_with (fun fuel => scale_points f (run fuel)) (Ok (map f pts, w)) /\ StronglySorted Rlt (map f pts) /\
  Forall (fun t => a <= t <= b) (map f pts) /\ length (map f pts) = length pts /\
  (Forall (fun x => -1 < x < 1) pts -> Forall (fun t => a < t < b) (map f pts)).
Proof.
  intros Hu Hf Hb [n Hn] Hs HF.
  assert (Hb2 : b = u * 2 + a) by (rewrite <- Hb, Hf; ring).
  split; [|split; [|split; [|split]]].
  - exists n. intros fuel Hfu. rewrite (Hn fuel Hfu). reflexivity.
  - eapply StronglySorted_map; [|exact Hs]. intros x y Hxy. rewrite !Hf. nra.
  - rewrite Forall_forall in *. intros t Ht. apply in_map_iff in Ht as (x & <- & Hx). apply HF in Hx. rewrite Hf. nra.
  - apply map_length.
  - intros HI. rewrite Forall_forall in *. intros t Ht. apply in_map_iff in Ht as (x & <- & Hx). apply HI in Hx. rewrite Hf. nra.
Qed.

Section Points.
Variable compute : kern -> option R -> res sve_result.

Lemma tau_points b n p : built compute b -> points_source (su (bsve b)) n p -> regular p ->
  ((length (vcols (su (bsve b))) <= n)%nat -> nonzero_ends p) ->
  exists pts w, ends_with (fun fuel => default_tau (fun x => x) fuel b (Some (Z.of_nat n))) (Ok (pts, w)) /\
    StronglySorted Rlt pts /\ Forall (fun t => 0 <= t <= bbeta b) pts /\
    (nonzero_ends p -> Forall (fun t => 0 < t < bbeta b) pts) /\ (w = true <-> length pts <> n).
Proof.
  intros Hb Hp Hr Hne. destruct (ok_r compute b Hb) as ((Hg & Ho & Hl) & _ & U1 & U2 & _).
  destruct (points_good (su (bsve b)) n p Hg ltac:(lia) U1 U2 Hp Hr Hne) as (pts & w & He & Hs & HF & HI & Hw).
  pose proof (beta_pos compute b Hb) as Pb.
  destruct (scale_good (fun x => bbeta b / 2 * (x + 1)) _ pts w 0 (bbeta b) (bbeta b / 2) ltac:(lra)
              ltac:(intros x; cbv beta; ring) ltac:(cbv beta; field) He Hs HF) as (H1 & H2 & H3 & H4 & H5).
  exists (map (fun x => bbeta b / 2 * (x + 1)) pts), w. split; [exact H1|]. split; auto. split; auto. split; auto.
  rewrite H4. auto.
Qed.

Lemma omega_points b n p : built compute b -> points_source (sv (bsve b)) n p -> regular p ->
  ((length (vcols (sv (bsve b))) <= n)%nat -> nonzero_ends p) ->
  exists pts w, ends_with (fun fuel => default_omega (fun x => x) fuel b (Some (Z.of_nat n))) (Ok (pts, w)) /\
    StronglySorted Rlt pts /\ Forall (fun w => - bwmax b <= w <= bwmax b) pts /\
    (nonzero_ends p -> Forall (fun w => - bwmax b < w < bwmax b) pts) /\ (w = true <-> length pts <> n).
Proof.
  intros Hb Hp Hr Hne. destruct (ok_r compute b Hb) as (_ & (Hg & Ho & Hl) & _ & _ & U1 & U2 & _).
  destruct (points_good (sv (bsve b)) n p Hg ltac:(lia) U1 U2 Hp Hr Hne) as (pts & w & He & Hs & HF & HI & Hw).
  pose proof (wmax_pos compute b Hb) as Pb.
  destruct (scale_good (fun y => bwmax b * y) _ pts w (- bwmax b) (bwmax b) (bwmax b) ltac:(lra)
              ltac:(intros x; cbv beta; ring) ltac:(cbv beta; ring) He Hs HF) as (H1 & H2 & H3 & H4 & H5).
  exists (map (fun y => bwmax b * y) pts), w. split; [exact H1|]. split; auto. split; auto. split; auto.
  rewrite H4. auto.
Qed.

Lemma default_number rnd fuel b :
  default_tau rnd fuel b None = default_tau rnd fuel b (Some (Z.of_nat (bsize b))) /\
  default_omega rnd fuel b None = default_omega rnd fuel b (Some (Z.of_nat (bsize b))).
Proof. split; reflexivity. Qed.
End Points.
