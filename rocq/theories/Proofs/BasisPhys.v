(** Basis functions in physical variables. *)
From Coq Require Import Reals ZArith Arith Bool Lra Lia String Ascii.
From Coquelicot Require Import Coquelicot.
From Coq Require Import List Sorting.Sorted Permutation.
From Verif.Model Require Import Base Util Num Roots Poly FT SVE Basis.
From Verif.Spec Require Import SPoly SFT SSVE SBasis.
From Verif.Proofs Require Import BaseFacts UtilFacts SumFacts IntFacts PPolyFacts PPolyInt SVEFacts FTFacts FTCall FTProps
  BasisFacts BasisInit BasisProps BasisOps.
Import ListNotations.
Open Scope R_scope.
Notation length := List.length.

Lemma pyindex_nat {A} (l : list A) n : pyindex l (Z.of_nat n) = nth_error l n.
Proof.
  unfold pyindex. destruct (Z.of_nat n <? 0)%Z eqn:E; [apply Z.ltb_lt in E; lia|].
  rewrite Nat2Z.id. destruct (_ && _) eqn:E2; auto. symmetry. apply nth_error_None.
  apply andb_false_iff in E2. rewrite Z.leb_gt, Z.ltb_ge in E2. lia.
Qed.

(** The value is the function [cval] of the column. *)
Lemma value_cval p l c x : geom_ok (vgeom p) -> (0 < glen (vgeom p))%nat -> nth_error (vcols p) l = Some c ->
  gxmin (vgeom p) <= x <= gxmax (vgeom p) -> value p (Z.of_nat l) x = Ok (cval (vgeom p) c x).
Proof.
  intros Hg Hl Hc Hx. unfold value, split, in_range. rewrite (proj2 (Rleb_true _ _) (proj1 Hx)).
  rewrite (proj2 (Rleb_true _ _) (proj2 Hx)). cbn [andb negb]. destruct Hg as (Hn & _).
  destruct (gnseg (vgeom p)) as [|m] eqn:E; [lia|]. cbn [bind]. rewrite pyindex_nat, Hc.
  destruct (glen (vgeom p)) as [|m'] eqn:E'; [lia|]. rewrite <- E'. reflexivity.
Qed.

Lemma represents_cval p l f : geom_ok (vgeom p) -> (0 < glen (vgeom p))%nat -> (l < length (vcols p))%nat ->
  (represents p l f <-> exists c, nth_error (vcols p) l = Some c /\
     forall x, gxmin (vgeom p) <= x <= gxmax (vgeom p) -> cval (vgeom p) c x = f x).
Proof.
  intros Hg Hl Hlen. destruct (nth_error (vcols p) l) as [c|] eqn:Ec.
  2:{ apply nth_error_None in Ec. lia. }
  split.
  - intros H. exists c. split; auto. intros x Hx. specialize (H x Hx).
    rewrite (value_cval p l c x Hg Hl Ec Hx) in H. congruence.
  - intros (c' & E & H) x Hx. injection E as <-. rewrite (value_cval p l c x Hg Hl Ec Hx), H; auto.
Qed.

Lemma scaled_min c a g : geom_ok g -> gxmin (scaled_geom a c g) = c * gxmin g + a /\ gxmax (scaled_geom a c g) = c * gxmax g + a.
Proof.
  intros (H1 & H2 & _). split.
  - apply (scaled_knot a c g 0). lia.
  - apply (scaled_knot a c g (gnseg g)). lia.
Qed.

Section Phys.
Variable compute : kern -> option R -> res sve_result.
Variable b : basis.
Hypothesis Hb : built compute b.
Let r := bsve b.

Lemma ok_r : sve_ok r.
Proof. destruct (built_inv compute b Hb) as (lam & q & f & f' & _ & _ & Hok & _). exact Hok. Qed.

Lemma bu_eq : bu b = VPoly (scaled_geom (bbeta b / 2) (bbeta b / 2) (vgeom (su r))) (firstn (bsize b) (vcols (su r))).
Proof. destruct (built_inv compute b Hb) as (lam & q & f & f' & _ & _ & _ & _ & _ & _ & _ & _ & _ & _ & E). rewrite E at 1. reflexivity. Qed.

Lemma bv_eq : bv b = VPoly (scaled_geom 0 (bwmax b) (vgeom (sv r))) (firstn (bsize b) (vcols (sv r))).
Proof. destruct (built_inv compute b Hb) as (lam & q & f & f' & _ & _ & _ & _ & _ & _ & _ & _ & _ & _ & E). rewrite E at 1. reflexivity. Qed.

Lemma bs_eq : bs b = map (fun x => sfactor (bbeta b) (bwmax b) (kyp (bkernel b)) * x) (firstn (bsize b) (ss r)).
Proof. destruct (built_inv compute b Hb) as (lam & q & f & f' & _ & _ & _ & _ & _ & _ & _ & _ & _ & _ & E). rewrite E at 1. reflexivity. Qed.

Lemma beta_pos : 0 < bbeta b.
Proof. destruct (built_inv compute b Hb) as (lam & q & f & f' & H & _). exact H. Qed.
Lemma wmax_pos : 0 < bwmax b.
Proof. destruct (built_inv compute b Hb) as (lam & q & f & f' & _ & H & _). exact H. Qed.
Lemma size_le : (bsize b <= length (ss r))%nat.
Proof. destruct (built_inv compute b Hb) as (lam & q & f & f' & _ & _ & _ & _ & _ & _ & _ & H & _). apply H. Qed.

Lemma bu_range : gxmin (vgeom (bu b)) = 0 /\ gxmax (vgeom (bu b)) = bbeta b.
Proof.
  rewrite bu_eq. cbn [vgeom]. destruct ok_r as ((Hg & _) & _ & U1 & U2 & _).
  destruct (scaled_min (bbeta b / 2) (bbeta b / 2) _ Hg) as [-> ->]. rewrite U1, U2. split; field.
Qed.
Lemma bv_range : gxmin (vgeom (bv b)) = - bwmax b /\ gxmax (vgeom (bv b)) = bwmax b.
Proof.
  rewrite bv_eq. cbn [vgeom]. destruct ok_r as (_ & (Hg & _) & _ & _ & V1 & V2 & _).
  destruct (scaled_min (bwmax b) 0 _ Hg) as [-> ->]. rewrite V1, V2. split; ring.
Qed.

Lemma u_phys l f : (l < bsize b)%nat -> represents (su r) l f ->
  represents (bu b) l (fun t => sqrt (2 / bbeta b) * f (2 * t / bbeta b - 1)).
Proof.
  intros Hl Hf. pose proof ok_r as ((Hg & Ho & Hlen) & _ & U1 & U2 & _ & _ & Lu & _). pose proof beta_pos as Hbp.
  pose proof size_le as Hsz.
  apply represents_cval in Hf; auto; try lia. destruct Hf as (c & Ec & Hf).
  rewrite U1, U2 in Hf. destruct bu_range as [R1 R2].
  assert (Hg' : geom_ok (scaled_geom (bbeta b / 2) (bbeta b / 2) (vgeom (su r)))) by (apply scaled_ok; auto; lra).
  apply represents_cval.
  - rewrite bu_eq; auto.
  - rewrite bu_eq. cbn [vgeom scaled_geom glen]. lia.
  - rewrite bu_eq. cbn [vcols]. rewrite firstn_length. lia.
  - exists c. split.
    + rewrite bu_eq. cbn [vcols]. rewrite nth_error_firstn; auto.
    + rewrite R1, R2. intros t Ht. rewrite bu_eq. cbn [vgeom].
      replace t with (bbeta b / 2 * (2 * t / bbeta b - 1) + bbeta b / 2) at 1 by (field; lra).
      rewrite scaled_cval by (auto; lra). rewrite Hf.
      * f_equal. replace (2 / bbeta b) with (/ (bbeta b / 2)) by (field; lra). rewrite sqrt_inv; auto.
      * assert (0 <= t / bbeta b <= 1).
        { split; [apply Rdiv_le_0_compat; lra|]. apply (Rmult_le_reg_r (bbeta b)); auto. unfold Rdiv. rewrite Rmult_assoc, Rinv_l by lra. lra. }
        replace (2 * t / bbeta b) with (2 * (t / bbeta b)) by (field; lra). lra.
Qed.

Lemma v_phys l f : (l < bsize b)%nat -> represents (sv r) l f ->
  represents (bv b) l (fun w => f (w / bwmax b) / sqrt (bwmax b)).
Proof.
  intros Hl Hf. pose proof ok_r as (_ & (Hg & Ho & Hlen) & _ & _ & V1 & V2 & _ & Lv & _). pose proof wmax_pos as Hw.
  pose proof size_le as Hsz.
  apply represents_cval in Hf; auto; try lia. destruct Hf as (c & Ec & Hf).
  rewrite V1, V2 in Hf. destruct bv_range as [R1 R2].
  assert (Hg' : geom_ok (scaled_geom 0 (bwmax b) (vgeom (sv r)))) by (apply scaled_ok; auto; lra).
  apply represents_cval.
  - rewrite bv_eq; auto.
  - rewrite bv_eq. cbn [vgeom scaled_geom glen]. lia.
  - rewrite bv_eq. cbn [vcols]. rewrite firstn_length. lia.
  - exists c. split.
    + rewrite bv_eq. cbn [vcols]. rewrite nth_error_firstn; auto.
    + rewrite R1, R2. intros t Ht. rewrite bv_eq. cbn [vgeom].
      replace t with (bwmax b * (t / bwmax b) + 0) at 1 by (field; lra).
      rewrite scaled_cval by (auto; lra). rewrite Hf.
      * unfold Rdiv. ring.
      * split; apply (Rmult_le_reg_r (bwmax b)); auto; unfold Rdiv; rewrite Rmult_assoc, Rinv_l by lra; lra.
Qed.

Lemma represents_unique p l f g x : represents p l f -> represents p l g ->
  gxmin (vgeom p) <= x <= gxmax (vgeom p) -> f x = g x.
Proof. intros Hf Hg Hx. specialize (Hf x Hx). specialize (Hg x Hx). congruence. Qed.

Lemma su_represents l : (l < length (ss r))%nat -> exists f, represents (su r) l f.
Proof.
  intros Hl. pose proof ok_r as ((Hg & Ho & Hlen) & _ & U1 & U2 & _ & _ & Lu & _).
  destruct (nth_error (vcols (su r)) l) as [c|] eqn:Ec; [|apply nth_error_None in Ec; lia].
  exists (cval (vgeom (su r)) c). apply represents_cval; auto; try lia. exists c. auto.
Qed.

Lemma sv_represents l : (l < length (ss r))%nat -> exists f, represents (sv r) l f.
Proof.
  intros Hl. pose proof ok_r as (_ & (Hg & Ho & Hlen) & _ & _ & U1 & U2 & _ & Lu & _).
  destruct (nth_error (vcols (sv r)) l) as [c|] eqn:Ec; [|apply nth_error_None in Ec; lia].
  exists (cval (vgeom (sv r)) c). apply represents_cval; auto; try lia. exists c. auto.
Qed.

(** Overlaps carry over. *)
Lemma u_overlap l m f g F G I : (l < bsize b)%nat -> (m < bsize b)%nat ->
  represents (su r) l f -> represents (su r) m g -> represents (bu b) l F -> represents (bu b) m G ->
  is_RInt (fun x => f x * g x) (-1) 1 I -> is_RInt (fun t => F t * G t) 0 (bbeta b) I.
Proof.
  intros Hl Hm Hf Hg HF HG HI. pose proof beta_pos as Hbp. destruct bu_range as [R1 R2].
  pose proof (u_phys l f Hl Hf) as Hf'. pose proof (u_phys m g Hm Hg) as Hg'.
  replace (-1) with (2 / bbeta b * 0 + -1) in HI by ring.
  replace 1 with (2 / bbeta b * bbeta b + -1) in HI by (field; lra).
  apply is_RInt_lin in HI. revert HI. apply is_RInt_ext_in; [lra|].
  intros t Ht.
  assert (Hr : gxmin (vgeom (bu b)) <= t <= gxmax (vgeom (bu b))) by (rewrite R1, R2; lra).
  rewrite (represents_unique _ _ _ _ t HF Hf' Hr), (represents_unique _ _ _ _ t HG Hg' Hr).
  replace (2 / bbeta b * t + -1) with (2 * t / bbeta b - 1) by (field; lra).
  rewrite <- (sqrt_sqrt (2 / bbeta b)) at 1 by (apply Rlt_le, Rdiv_lt_0_compat; lra). ring.
Qed.

Lemma v_overlap l m f g F G I : (l < bsize b)%nat -> (m < bsize b)%nat ->
  represents (sv r) l f -> represents (sv r) m g -> represents (bv b) l F -> represents (bv b) m G ->
  is_RInt (fun y => f y * g y) (-1) 1 I -> is_RInt (fun w => F w * G w) (- bwmax b) (bwmax b) I.
Proof.
  intros Hl Hm Hf Hg HF HG HI. pose proof wmax_pos as Hbp. destruct bv_range as [R1 R2].
  pose proof (v_phys l f Hl Hf) as Hf'. pose proof (v_phys m g Hm Hg) as Hg'.
  replace (-1) with (/ bwmax b * - bwmax b + 0) in HI by (field; lra).
  replace 1 with (/ bwmax b * bwmax b + 0) in HI at 1 by (field; lra).
  apply is_RInt_lin in HI. revert HI. apply is_RInt_ext_in; [lra|].
  intros t Ht.
  assert (Hr : gxmin (vgeom (bv b)) <= t <= gxmax (vgeom (bv b))) by (rewrite R1, R2; lra).
  rewrite (represents_unique _ _ _ _ t HF Hf' Hr), (represents_unique _ _ _ _ t HG Hg' Hr).
  replace (/ bwmax b * t + 0) with (t / bwmax b) by (field; lra).
  assert (Hs : 0 < sqrt (bwmax b)) by (apply sqrt_lt_R0; auto).
  rewrite <- (sqrt_sqrt (bwmax b)) at 1 by lra. field. lra.
Qed.

(** The expansion. *)
Lemma expansion t w (f g F G : nat -> R -> R) :
  0 <= t <= bbeta b -> - bwmax b <= w <= bwmax b ->
  (forall l, (l < bsize b)%nat -> represents (su r) l (f l) /\ represents (sv r) l (g l) /\
                                  represents (bu b) l (F l) /\ represents (bv b) l (G l)) ->
  sumn (bsize b) (fun l => nth l (bs b) 0 * F l t * G l w) =
  powerRZ (bwmax b) (- kyp (bkernel b)) *
  sumn (bsize b) (fun l => sval r l * f l (2 * t / bbeta b - 1) * g l (w / bwmax b)).
Proof.
  intros Ht Hw H. rewrite <- sumn_scal. apply sumn_ext. intros l Hl. destruct (H l Hl) as (Hf & Hg & HF & HG).
  destruct bu_range as [R1 R2]. destruct bv_range as [Q1 Q2]. pose proof beta_pos as Pb. pose proof wmax_pos as Pw.
  rewrite (represents_unique _ _ _ _ t HF (u_phys l _ Hl Hf)) by (rewrite R1, R2; lra).
  rewrite (represents_unique _ _ _ _ w HG (v_phys l _ Hl Hg)) by (rewrite Q1, Q2; lra).
  assert (En : nth l (bs b) 0 = sfactor (bbeta b) (bwmax b) (kyp (bkernel b)) * sval r l).
  { rewrite bs_eq. pose proof size_le. set (h := fun x => sfactor (bbeta b) (bwmax b) (kyp (bkernel b)) * x).
    rewrite (nth_indep _ 0 (h 0)) by (rewrite map_length, firstn_length; lia).
    rewrite map_nth. unfold h, sval. rewrite nth_firstn by auto. reflexivity. }
  rewrite En. unfold sfactor. rewrite sqrt_mult by lra.
  assert (E2 : sqrt (bbeta b / 2) * sqrt (2 / bbeta b) = 1).
  { rewrite <- sqrt_mult by (try lra; apply Rlt_le, Rdiv_lt_0_compat; lra).
    replace (bbeta b / 2 * (2 / bbeta b)) with 1 by (field; lra). apply sqrt_1. }
  assert (Hs : sqrt (bwmax b) <> 0) by (apply Rgt_not_eq, sqrt_lt_R0; auto).
  transitivity ((sqrt (bbeta b / 2) * sqrt (2 / bbeta b)) * powerRZ (bwmax b) (- kyp (bkernel b)) *
     (sval r l * f l (2 * t / bbeta b - 1) * g l (w / bwmax b))).
  - field. auto.
  - rewrite E2. ring.
Qed.

(** The Fourier transform over [0, beta]. *)
Lemma uhat_phys lam l f ns M j n : klam (bkernel b) = Some lam -> ft_call (buhat b) ns = Ok M ->
  (l < bsize b)%nat -> nth_error ns j = Some n -> Rabs (IZR n) < 40 * lam -> represents (bu b) l f ->
  exists v, entry M l j = Some v /\ is_fourier (fun t => PI * IZR n * t / bbeta b) f 0 (bbeta b) v.
Proof.
  intros Hlam HM Hl Hn Hlt Hf. pose proof beta_pos as Pb. pose proof size_le as Hsz.
  pose proof ok_r as ((Hg & Ho & Hlen) & _ & U1 & U2 & _ & _ & Lu & _).
  destruct (built_inv compute b Hb) as (lam' & q & f0 & f1 & _ & _ & _ & _ & Hlam' & _ & Hq & _ & Hf0 & Hf1 & E).
  rewrite Hlam in Hlam'. injection Hlam' as <-. fold r in Hf0.
  assert (Eh : buhat b = f1) by (rewrite E; reflexivity). rewrite Eh in HM. clear E Eh.
  pose proof Hf1 as Hf1'. unfold ft_slice in Hf1'.
  pose proof (ft_init_val _ _ _ _ _ Hf0) as (G0 & K0 & Q0 & _ & _ & A0 & _).
  assert (EA : fasymp f0 = Some (40 * lam)).
  { unfold ft_init in Hf0. destruct (_ || _); [discriminate|]. destruct (power_model q _); [|discriminate].
    cbn [bind] in Hf0. injection Hf0 as <-. reflexivity. }
  rewrite EA in Hf1'. cbn [asymp_of] in Hf1'. rewrite G0, K0, Q0, slice_nat in Hf1'.
  destruct (nth_error (vcols (su r)) l) as [c|] eqn:Ec; [|apply nth_error_None in Ec; lia].
  set (c' := Col (fun k i => sqrt (bbeta b) * cdat c k i) (csym c)).
  assert (Ec' : nth_error (firstn (bsize b) (vcols (full_u r (bbeta b)))) l = Some c').
  { rewrite nth_error_firstn by auto. unfold full_u. cbn [vcols]. unfold scaled_cols.
    rewrite nth_error_map, Ec. reflexivity. }
  assert (Fr : fresh (VPoly (vgeom (full_u r (bbeta b))) (firstn (bsize b) (vcols (full_u r (bbeta b))))))
    by exact (full_fresh r (bbeta b) (proj1 ok_r)).
  destruct (ft_fourier _ _ _ _ _ ns M l c' j n Fr Hf1' HM Ec' Hn) as (v & Ev & Hv).
  { intros x Hx. injection Hx as <-. auto. }
  exists v. split; auto. cbn [vgeom full_u] in Hv.
  assert (Hc : forall x, cval (vgeom (su r)) c' x = sqrt (bbeta b) * cval (vgeom (su r)) c x).
  { intros x. unfold cval, c'. cbn [cdat]. unfold legval. rewrite <- Rmult_assoc. f_equal.
    rewrite <- sumn_scal. apply sumn_ext. intros; ring. }
  assert (Hfx : forall t, 0 <= t <= bbeta b -> f t = sqrt (2 / bbeta b) * cval (vgeom (su r)) c (2 * t / bbeta b - 1)).
  { intros t Ht. destruct bu_range as [R1 R2].
    refine (represents_unique (bu b) l _ (fun t => sqrt (2 / bbeta b) * cval (vgeom (su r)) c (2 * t / bbeta b - 1)) t Hf _ _); [|rewrite R1, R2; lra]. apply u_phys; auto.
    apply represents_cval; auto; try lia. exists c. auto. }
  assert (E2 : sqrt (bbeta b) = sqrt 2 * sqrt (bbeta b / 2)).
  { rewrite <- sqrt_mult by lra. f_equal. field. }
  assert (E3 : sqrt (2 / bbeta b) * (bbeta b / 2) = sqrt (bbeta b / 2)).
  { replace (2 / bbeta b) with (/ (bbeta b / 2)) by (field; lra). rewrite sqrt_inv.
    rewrite <- (sqrt_sqrt (bbeta b / 2)) at 2 by lra. field. apply Rgt_not_eq, sqrt_lt_R0. lra. }
  pose proof (sqrt_lt_R0 2 ltac:(lra)) as P2.
  assert (Hgen : forall (h : R -> R) (I : R), is_RInt (fun x => h (PI * IZR n * (x + 1) / 2) * cval (vgeom (su r)) c' x) (-1) 1 (sqrt 2 * I) ->
            is_RInt (fun t => h (PI * IZR n * t / bbeta b) * f t) 0 (bbeta b) I).
  { intros h I HI. apply (is_RInt_scalR _ _ _ _ (/ sqrt 2)) in HI.
    replace (/ sqrt 2 * (sqrt 2 * I)) with I in HI by (field; lra).
    match type of HI with is_RInt ?F _ _ _ => assert (HI' : is_RInt F (2 / bbeta b * 0 + -1) (2 / bbeta b * bbeta b + -1) I) end.
    { replace (2 / bbeta b * 0 + -1) with (-1) by ring. replace (2 / bbeta b * bbeta b + -1) with 1 by (field; lra). exact HI. }
    clear HI. rename HI' into HI. apply is_RInt_lin in HI. revert HI. apply is_RInt_ext_in; [lra|]. intros t Ht. rewrite Hc, Hfx by lra.
    replace (2 / bbeta b * t + -1) with (2 * t / bbeta b - 1) by (field; lra).
    replace (PI * IZR n * (2 * t / bbeta b - 1 + 1) / 2) with (PI * IZR n * t / bbeta b) by (field; lra).
    rewrite E2. set (X := cval _ _ _). set (Y := h _).
    replace (sqrt (2 / bbeta b)) with (2 / bbeta b * sqrt (bbeta b / 2)) by (rewrite <- E3; field; lra).
    field. split; lra. }
  destruct Hv as [Hre Him]. split.
  - apply (Hgen cos). replace (sqrt 2 * Re v) with (Re (Cmult (RtoC (sqrt 2)) v)); auto.
    unfold Re, Cmult, RtoC; simpl; ring.
  - apply (Hgen sin). replace (sqrt 2 * Im v) with (Im (Cmult (RtoC (sqrt 2)) v)); auto.
    unfold Im, Cmult, RtoC; simpl; ring.
Qed.
End Phys.
