(** Facts about the overlap integral in double precision: sums, one interval, and
    the division of intervals. *)
From Coq Require Import Reals Lra Lia Arith ZArith Bool.
From Coq Require Import List Sorting.Sorted Sorting.Permutation.
From Flocq Require Import Core Plus_error Relative.
From Verif.Model Require Import Base Util Num IEEE Gauss Kronrod Poly PolyIEEE GaussIEEE Overlap OverlapIEEE.
From Verif.Spec Require Import SGauss SBasis SOverlap SOverlapIEEE.
From Verif.Proofs Require Import BaseFacts GaussExamples GaussFacts GaussExact KronrodFacts PPolyFacts AugmentProps ComputeMerged BasisPhys IEEEFacts OverlapTiles OverlapFacts.
Import ListNotations.
Open Scope R_scope.
Notation length := List.length.

Definition v64 : R := / 2 ^ 53.
Lemma v64_bounds : 0 < v64 < / 1000.
Proof. unfold v64. split; [apply Rinv_0_lt_compat, pow_lt; lra|]. apply Rinv_lt_contravar; [|lra]. assert (0 < 2 ^ 53) by (apply pow_lt; lra). lra. Qed.

(** Addition of doubles has a relative error even near the smallest numbers. *)
Lemma add64 x y : is_double x -> is_double y -> Rabs (rnd64 (x + y) - (x + y)) <= v64 * Rabs (x + y).
Proof.
  intros Hx Hy. destruct (FLT_plus_error_N_ex radix2 (-1074) 53 (fun x => negb (Z.even x)) x y Hx Hy) as (e & He & E).
  unfold rnd64, fexp64. change ZnearestE with (Znearest (fun x => negb (Z.even x))). rewrite E.
  replace ((x + y) * (1 + e) - (x + y)) with (e * (x + y)) by ring. rewrite Rabs_mult. apply Rmult_le_compat_r; [apply Rabs_pos|].
  eapply Rle_trans; [exact He|]. assert (Hu : u_ro radix2 53 = v64).
  { unfold u_ro, v64. change (bpow radix2 (- (53) + 1)) with (/ IZR 4503599627370496). replace (2 ^ 53) with (2 * IZR 4503599627370496) by (simpl; lra). rewrite Rinv_mult. reflexivity. }
  rewrite Hu. pose proof v64_bounds. apply Rmult_le_reg_r with (1 + v64); [lra|]. unfold Rdiv. rewrite Rmult_assoc, Rinv_l by lra. nra.
Qed.
Lemma sub64 x y : is_double x -> is_double y -> Rabs (rnd64 (x - y) - (x - y)) <= v64 * Rabs (x - y).
Proof. intros Hx Hy. apply add64; [auto|apply double_opp; auto]. Qed.
Lemma double_abs x : is_double x -> is_double (Rabs x).
Proof. intros H. unfold Rabs. destruct (Rcase_abs x); [apply double_opp|]; auto. Qed.

Lemma rsum_abs_le l : Rabs (rsum l) <= rsum (map Rabs l).
Proof.
  induction l as [|x l IH]; [cbn; rewrite Rabs_R0; lra|]. cbn [map]. rewrite !rsum_cons. eapply Rle_trans; [apply Rabs_triang|]. lra.
Qed.
Lemma rsum_abs_pos l : 0 <= rsum (map Rabs l).
Proof. induction l as [|x l IH]; [cbn; lra|]. cbn [map]. rewrite !rsum_cons. pose proof (Rabs_pos x). lra. Qed.

(** Any order and grouping of additions qualifies. *)
Lemma added_near l s : added64 l s -> Forall is_double l ->
  is_double s /\ Rabs (s - rsum l) <= ((1 + v64) ^ (length l) - 1) * rsum (map Rabs l).
Proof.
  pose proof v64_bounds as Hv.
  assert (Hp : forall n, 1 <= (1 + v64) ^ n) by (intros n; apply pow_R1_Rle; lra).
  intros H. induction H as [|x|l1 l2 s1 s2 N1 N2 H1 IH1 H2 IH2|l l' s P H IH]; intros F.
  - split; [apply double_0|]. cbn. rewrite Rminus_0_r, Rabs_R0. lra.
  - inversion F; subst. split; auto. cbn. replace (x - (x + 0)) with 0 by ring. rewrite Rabs_R0. pose proof (Rabs_pos x). nra.
  - apply Forall_app in F as [F1 F2]. destruct (IH1 F1) as [D1 E1]. destruct (IH2 F2) as [D2 E2]. split; [apply rnd64_double|].
    pose proof (add64 s1 s2 D1 D2) as E. rewrite map_app, !rsum_app, app_length.
    set (n1 := length l1) in *. set (n2 := length l2) in *.
    assert (1 <= n1)%nat by (destruct l1; [congruence|unfold n1; cbn; lia]). assert (1 <= n2)%nat by (destruct l2; [congruence|unfold n2; cbn; lia]).
    pose proof (rsum_abs_le l1) as L1. pose proof (rsum_abs_le l2) as L2. pose proof (rsum_abs_pos l1) as P1. pose proof (rsum_abs_pos l2) as P2.
    set (a1 := rsum (map Rabs l1)) in *. set (a2 := rsum (map Rabs l2)) in *. set (G := (1 + v64) ^ (n1 + n2 - 1)).
    assert (G1 : (1 + v64) ^ n1 <= G) by (apply Rle_pow; [lra|lia]). assert (G2 : (1 + v64) ^ n2 <= G) by (apply Rle_pow; [lra|lia]).
    replace ((1 + v64) ^ (n1 + n2)) with ((1 + v64) * G) by (unfold G; replace (n1 + n2)%nat with (S (n1 + n2 - 1)) at 2 by lia; reflexivity).
    assert (E1' : Rabs (s1 - rsum l1) <= (G - 1) * a1) by (eapply Rle_trans; [exact E1|]; apply Rmult_le_compat_r; lra).
    assert (E2' : Rabs (s2 - rsum l2) <= (G - 1) * a2) by (eapply Rle_trans; [exact E2|]; apply Rmult_le_compat_r; lra).
    assert (B : Rabs (s1 + s2) <= G * (a1 + a2)).
    { replace (s1 + s2) with ((s1 - rsum l1) + (s2 - rsum l2) + (rsum l1 + rsum l2)) by ring.
      eapply Rle_trans; [apply Rabs_triang|]. eapply Rle_trans; [apply Rplus_le_compat; apply Rabs_triang|]. nra. }
    replace (rnd64 (s1 + s2) - (rsum l1 + rsum l2)) with ((rnd64 (s1 + s2) - (s1 + s2)) + ((s1 - rsum l1) + (s2 - rsum l2))) by ring.
    eapply Rle_trans; [apply Rabs_triang|]. pose proof (Rabs_triang (s1 - rsum l1) (s2 - rsum l2)).
    assert (v64 * Rabs (s1 + s2) <= v64 * (G * (a1 + a2))) by (apply Rmult_le_compat_l; lra). lra.
  - assert (F' : Forall is_double l) by (rewrite Forall_forall in *; intros x Hx; apply F, (Permutation_in _ P), Hx).
    destruct (IH F') as [D E]. split; auto. rewrite <- (Permutation_length P), <- (rsum_perm _ _ P), <- (rsum_perm _ _ (Permutation_map Rabs P)). exact E.
Qed.
Lemma sums_added N sm : (1 + / 2 ^ 53) ^ N <= 2 -> (forall l, added64 l (sm l)) -> sums_near N ((1 + / 2 ^ 53) ^ N - 1) sm.
Proof.
  intros HN H. pose proof v64_bounds as Hv. fold v64 in *. assert (1 <= (1 + v64) ^ N) by (apply pow_R1_Rle; lra). split; [lra|].
  intros l Hl F. destruct (added_near l (sm l) (H l) F) as [D E]. split; auto. eapply Rle_trans; [exact E|].
  apply Rmult_le_compat_r; [apply rsum_abs_pos|]. pose proof (Rle_pow (1 + v64) (length l) N ltac:(lra) Hl). lra.
Qed.

(** The reseated rule. *)
Lemma double_IZR_small m : (Z.abs m < 2 ^ 53)%Z -> is_double (IZR m).
Proof.
  intros H. replace (IZR m) with (F2R (Float radix2 m 0)) by (unfold F2R; simpl; ring). apply generic_format_FLT. exists (Float radix2 m 0); simpl; auto; lia.
Qed.
Lemma seat_scale s t : rnd64 (rnd64 (t - s) / rnd64 (1 - -1)) = half64 s t.
Proof. unfold half64. rewrite (rnd64_id (1 - -1)); [replace (1 - -1) with 2 by ring; reflexivity|]. replace (1 - -1) with 2 by ring. apply (double_IZR_small 2). reflexivity. Qed.
Lemma seat64_x s t : nodes_rd rnd64 (s, t) = map (point64 s t) kronrod_x.
Proof.
  unfold nodes_rd, seat_rd. cbn [nr kronrod_rd]. unfold reseat_rd. cbn [rx rule_init ra rb fst snd].
  rewrite map_map. apply map_ext. intros z. unfold point64. rewrite seat_scale.
  replace (1 + -1) with 0 by ring. rewrite (rnd64_id 0) by apply double_0. unfold Rdiv at 1. rewrite Rmult_0_l, (rnd64_id 0), Rminus_0_r by apply double_0.
  rewrite (rnd64_id (rnd64 z)) by apply rnd64_double. reflexivity.
Qed.
Lemma seat64_w s t : rw (nr (seat_rd rnd64 (s, t))) = map (weight64 s t) kronrod_w.
Proof.
  unfold seat_rd. cbn [nr kronrod_rd]. unfold reseat_rd. cbn [rw rule_init ra rb fst snd]. rewrite map_map. apply map_ext. intros w.
  unfold weight64. rewrite seat_scale. f_equal. ring.
Qed.
Lemma seat64_v s t : nv (seat_rd rnd64 (s, t)) = map (weight64 s t) kronrod_v.
Proof.
  unfold seat_rd. cbn [nr nv kronrod_rd]. cbn [rule_init ra rb fst snd]. rewrite map_map. apply map_ext. intros w.
  unfold weight64. rewrite seat_scale. reflexivity.
Qed.

(** One row of an evaluated set. *)
Lemma arr_row_rd old p xs px l u : vcall_arr_rd old rnd64 p xs = Ok px -> computed_by old p l u -> (l < length (vcols p))%nat -> nth l px [] = map u xs.
Proof.
  intros H Hu Hl. unfold vcall_arr_rd in H. destruct (forallb (in_range (vgeom p)) xs) eqn:Er; [|discriminate]. cbn [negb] in H.
  destruct (collect (map (split_rd rnd64 (vgeom p)) xs)) as [ix|] eqn:Eix; [|discriminate]. cbn [bind] in H.
  apply collect_map_nth in Eix as [Elen Enth].
  destruct (glen (vgeom p)) as [|k] eqn:Eg; [discriminate|]. injection H as <-.
  destruct (nth_error (vcols p) l) as [c|] eqn:Hc; [|apply nth_error_None in Hc; lia].
  erewrite nth_error_nth; [|apply map_nth_error, Hc]. cbv beta.
  apply nth_ext with (d := 0) (d' := 0); rewrite !map_length; auto. intros i Hi.
  destruct (nth_error xs i) as [x|] eqn:Ex; [|apply nth_error_None in Ex; lia]. destruct (Enth i x Ex) as (a & Ha & Hia).
  rewrite (nth_error_nth _ _ 0 (map_nth_error u i xs Ex)).
  rewrite (nth_error_nth _ _ 0 (map_nth_error (fun a => piece_rd old rnd64 (vgeom p) c (fst a) (snd a)) i ix Hia)).
  symmetry. apply Hu. unfold value_rd. rewrite Ha. cbn [bind]. rewrite pyindex_nat, Hc, Eg. reflexivity.
Qed.

Lemma wsum_terms sm c row fx s t zs ws u h : row = map u (map (point64 s t) zs) -> map (fun v => nth c v 0) fx = map h (map (point64 s t) zs) ->
  wsum_rd rnd64 sm c row fx (map (weight64 s t) ws) = sm (terms64 s t zs ws u h).
Proof.
  intros -> H. unfold wsum_rd, terms64. f_equal.
  rewrite (map2_map_r (fun a b => rnd64 (a * b)) (fun v => nth c v 0)), H, map2_maps, map2_maps, map2_diag, map2_maps. reflexivity.
Qed.

Lemma map2_length_le {A B C} (F : A -> B -> C) l m : (length (map2 F l m) <= length m)%nat.
Proof. revert m. induction l; intros [|b m]; simpl; try lia. specialize (IHl m). lia. Qed.
Lemma map2_double (F : R -> R -> R) l m : Forall is_double (map2 (fun a b => rnd64 (F a b)) l m).
Proof. revert m. induction l; intros [|b m]; simpl; constructor; auto. apply rnd64_double. Qed.
Lemma terms_double s t zs ws u h : Forall is_double (terms64 s t zs ws u h).
Proof. unfold terms64. revert ws. induction zs; intros [|b m]; simpl; constructor; auto. apply rnd64_double. Qed.

(** What one interval contributes. *)
Definition panel_near (old : bool) (sg : R) (p : vpoly) (f : R -> res (list R)) (q : panel) : Prop :=
  (forall l c, is_double (pint21 q l c) /\ is_double (pint10 q l c)) /\
  forall l c u h, (l < length (vcols p))%nat -> computed_by old p l u -> component f c h ->
    Rabs (pint21 q l c - sum31 u h (fst (pspan q)) (snd (pspan q))) <= sg * abs31 u h (fst (pspan q)) (snd (pspan q)) /\
    Rabs (pint10 q l c - sum15 u h (fst (pspan q)) (snd (pspan q))) <= sg * abs15 u h (fst (pspan q)) (snd (pspan q)).

Lemma make_panel_near old N sg sm p f st fx px : sums_near N sg sm -> (31 <= N)%nat ->
  collect (map f (nodes_rd rnd64 st)) = Ok fx -> vcall_arr_rd old rnd64 p (nodes_rd rnd64 st) = Ok px ->
  panel_near old sg p f (make_panel_rd rnd64 sm st fx px).
Proof.
  intros [Hsg Hs] HN Hf Hp. destruct st as [s t]. pose proof kronrod_shape as (Lx & Lw & Lv & _). split.
  - intros l c. cbn [pint21 pint10 make_panel_rd]. unfold wsum_rd. rewrite seat64_w, seat64_v. split.
    + apply (fun H1 H2 => proj1 (Hs _ H1 H2)); [|apply (map2_double Rmult)]. eapply Nat.le_trans; [apply map2_length_le|]. rewrite map_length. lia.
    + apply (fun H1 H2 => proj1 (Hs _ H1 H2)); [|apply (map2_double Rmult)]. eapply Nat.le_trans; [apply map2_length_le|]. rewrite map_length. lia.
  - intros l c u h Hl Hu Hc. cbn [pint21 pint10 make_panel_rd pspan fst snd].
    pose proof (arr_row_rd _ _ _ _ _ _ Hp Hu Hl) as Hrow. pose proof (collect_fun _ _ _ _ _ Hc Hf) as Hcol. rewrite seat64_x in Hrow, Hcol.
    assert (Hrow' : vsel (nth l px []) = map u (map (point64 s t) (vsel kronrod_x))) by (rewrite Hrow, !vsel_map; reflexivity).
    assert (Hcol' : map (fun v => nth c v 0) (vsel fx) = map h (map (point64 s t) (vsel kronrod_x))) by (rewrite <- !vsel_map, Hcol; reflexivity).
    rewrite seat64_w, seat64_v, (wsum_terms _ _ _ _ _ _ _ _ _ _ Hrow Hcol), (wsum_terms _ _ _ _ _ _ _ _ _ _ Hrow' Hcol'). split.
    + apply (fun H1 H2 => proj2 (Hs _ H1 H2)); [|apply terms_double]. eapply Nat.le_trans; [apply map2_length_le|]. lia.
    + apply (fun H1 H2 => proj2 (Hs _ H1 H2)); [|apply terms_double]. eapply Nat.le_trans; [apply map2_length_le|]. lia.
Qed.

(** The inner point of an interval. *)
Lemma mid_inside s t : is_double s -> is_double t -> s <= t -> s <= mid_rd rnd64 s t <= t.
Proof.
  intros Hs Ht Hst. unfold mid_rd. pose proof v64_bounds as Hv. pose proof (sub64 t s Ht Hs) as E. rewrite (Rabs_pos_eq (t - s)) in E by lra.
  assert (Hd0 : 0 <= rnd64 (t - s)) by (apply rnd64_ge; [apply double_0|lra]). pose proof (rnd64_double (t - s)) as Hdd.
  set (d := rnd64 (t - s)) in *.
  assert (Hh0 : 0 <= rnd64 (d / 2)) by (apply rnd64_ge; [apply double_0|lra]).
  assert (Hh : rnd64 (d / 2) <= t - s).
  { destruct (Rle_lt_dec (bpow radix2 (-1021)) (t - s)) as [Hb|Hb].
    - assert (Hd1 : bpow radix2 (-1021) <= d). { apply rnd64_ge; [|exact Hb]. apply generic_format_bpow. unfold fexp64, FLT_exp. lia. }
      rewrite half_round by (rewrite Rabs_pos_eq; lra). rewrite rnd64_id by auto. apply Rabs_le_inv in E. nra.
    - apply Rle_trans with d; [apply rnd64_le'; [auto|lra]|]. apply rnd64_le'; [|lra].
      destruct (double_multiple t Ht) as [m Hm]. destruct (double_multiple s Hs) as [k Hk].
      replace (t - s) with (IZR (m - k) * IEEEFacts.eta) by (rewrite minus_IZR, Hm, Hk; ring). apply small_multiple_double.
      rewrite minus_IZR. replace ((IZR m - IZR k) * IEEEFacts.eta) with (t - s) by (rewrite Hm, Hk; ring). rewrite Rabs_pos_eq; lra. }
  split; [apply rnd64_ge; [auto|lra]|apply rnd64_le'; [auto|lra]].
Qed.

Lemma tiles_cells st r kn : double_ends st -> tiles (st :: r) kn -> tiles (cells_rd rnd64 st ++ r) kn.
Proof.
  destruct st as [s t]. intros [Ds Dt] (e & A & B & C & D & E). cbn [fst snd] in *. fold (pairs e) in E.
  destruct (pairs_in e s t) as (a & b & ->); [apply (Permutation_in _ E); left; auto|].
  apply sorted_app in A as (A1 & A2 & A3). apply StronglySorted_inv in A2 as [A2 A4]. rewrite Forall_forall in A4.
  assert (Hst : s <= t) by (apply A4; left; auto). pose proof (mid_inside s t Ds Dt Hst) as Hm.
  unfold cells_rd. cbn [fst snd]. set (m := mid_rd rnd64 s t) in *.
  exists (a ++ s :: m :: t :: b). repeat split.
  - apply sorted_app. split; [auto|]. split.
    + pose proof A2 as A2'. apply StronglySorted_inv in A2' as [_ A5]. rewrite Forall_forall in A5.
      constructor; [constructor; [exact A2|]|]; apply Forall_forall.
      * intros y [<-|Hy]; [lra|]. specialize (A5 y Hy). lra.
      * intros y [<-|Hy]; [lra|]. apply A4, Hy.
    + intros x y Hx [<-|[<-|Hy]].
      * apply A3; [auto|left; auto].
      * assert (x <= s) by (apply A3; [auto|left; auto]). lra.
      * apply A3; [auto|right; auto].
  - intros x Hx. apply B in Hx. rewrite !in_app_iff in *. cbn [In] in *. tauto.
  - rewrite <- C. rewrite (hd_app a (m :: t :: b)), (hd_app a (t :: b)). reflexivity.
  - rewrite <- D. replace (a ++ s :: m :: t :: b) with ((a ++ [s; m]) ++ t :: b) by (rewrite <- app_assoc; reflexivity).
    replace (a ++ s :: t :: b) with ((a ++ [s]) ++ t :: b) by (rewrite <- app_assoc; reflexivity).
    rewrite !rev_app_distr. cbn [rev]. destruct (rev b); reflexivity.
  - fold (pairs (a ++ s :: m :: t :: b)). rewrite pairs_app, !pairs_cons. rewrite pairs_app, pairs_cons in E.
    rewrite <- Permutation_middle in E. apply Permutation_cons_inv in E. cbn [app].
    rewrite <- !Permutation_middle. rewrite E. reflexivity.
Qed.

Lemma cells_double st : double_ends st -> Forall double_ends (cells_rd rnd64 st).
Proof. intros [A B]. unfold cells_rd, mid_rd. repeat constructor; cbn [fst snd]; auto; apply rnd64_double. Qed.

Lemma tiles_refine64 iv : forall D kn, Forall double_ends iv -> tiles (D ++ iv) kn -> tiles (D ++ flat_map (cells_rd rnd64) iv) kn.
Proof.
  induction iv as [|st iv IH]; intros D kn F H; [auto|]. inversion F as [|? ? F1 F2]; subst. cbn [flat_map].
  rewrite app_assoc. apply IH; auto. rewrite <- app_assoc. apply (tiles_perm (D ++ st :: iv) (st :: D ++ iv)) in H; [|apply Permutation_sym, Permutation_middle].
  apply tiles_cells in H; auto. eapply tiles_perm; [|exact H].
  rewrite !app_assoc. apply Permutation_app_tail, Permutation_app_comm.
Qed.
Lemma cells_list_double iv : Forall double_ends iv -> Forall double_ends (flat_map (cells_rd rnd64) iv).
Proof. induction 1; cbn [flat_map]; [constructor|]. apply Forall_app. split; [apply cells_double|]; auto. Qed.

(** One step of a running total over intervals. *)
Lemma total_step N sg sm (F y a : panel -> R) ps T Y A gam G : sums_near N sg sm -> (length ps <= N)%nat ->
  (forall q, In q ps -> is_double (F q) /\ Rabs (F q - y q) <= (gam - 1) * a q /\ Rabs (y q) <= a q) -> 1 <= gam ->
  is_double T -> Rabs (T - Y) <= (G - 1) * A -> Rabs Y <= A -> gam * (1 + sg) <= G ->
  Rabs (rnd64 (T + sm (map F ps)) - (Y + psum y ps)) <= ((1 + v64) * G - 1) * (A + psum a ps) /\ Rabs (Y + psum y ps) <= A + psum a ps /\
  Rabs (sm (map F ps)) <= G * psum a ps.
Proof.
  intros [Hsg Hs] HN HF Hgam HT HTY HY HG. pose proof v64_bounds as Hv.
  assert (Hsum : Rabs (rsum (map F ps) - psum y ps) <= (gam - 1) * psum a ps /\ Rabs (psum y ps) <= psum a ps /\
                 rsum (map Rabs (map F ps)) <= gam * psum a ps /\ 0 <= psum a ps).
  { clear - HF Hgam. unfold psum. induction ps as [|q ps IH]; [cbn; rewrite Rminus_0_r, Rabs_R0; lra|].
    destruct (IH (fun q' Hq => HF q' (or_intror Hq))) as (I1 & I2 & I3 & I4). destruct (HF q (or_introl eq_refl)) as (_ & H1 & H2).
    cbn [map]. rewrite !rsum_cons. pose proof (Rabs_pos (y q)).
    assert (Rabs (F q) <= gam * a q). { replace (F q) with ((F q - y q) + y q) by ring. eapply Rle_trans; [apply Rabs_triang|]. lra. }
    split; [|split; [|split; lra]].
    - replace (F q + rsum (map F ps) - (y q + rsum (map y ps))) with ((F q - y q) + (rsum (map F ps) - rsum (map y ps))) by ring.
      eapply Rle_trans; [apply Rabs_triang|]. lra.
    - eapply Rle_trans; [apply Rabs_triang|]. lra. }
  destruct Hsum as (I1 & I2 & I3 & I4).
  destruct (Hs (map F ps)) as [Ds Es]; [rewrite map_length; exact HN|apply Forall_forall; intros x Hx; apply in_map_iff in Hx as (q & <- & Hq); apply HF, Hq|].
  pose proof (add64 T (sm (map F ps)) HT Ds) as Ea. set (S := sm (map F ps)) in *. set (Py := psum y ps) in *. set (Pa := psum a ps) in *.
  assert (HS : Rabs (S - Py) <= (G - 1) * Pa).
  { replace (S - Py) with ((S - rsum (map F ps)) + (rsum (map F ps) - Py)) by ring. eapply Rle_trans; [apply Rabs_triang|].
    assert (sg * rsum (map Rabs (map F ps)) <= sg * (gam * Pa)) by (apply Rmult_le_compat_l; lra).
    assert (gam * (1 + sg) * Pa <= G * Pa) by (apply Rmult_le_compat_r; lra). lra. }
  assert (HA : 0 <= A) by (pose proof (Rabs_pos Y); lra).
  assert (HSa : Rabs S <= G * Pa). { replace S with ((S - Py) + Py) by ring. eapply Rle_trans; [apply Rabs_triang|]. lra. }
  assert (HTa : Rabs T <= G * A). { replace T with ((T - Y) + Y) by ring. eapply Rle_trans; [apply Rabs_triang|]. lra. }
  split; [|split; [eapply Rle_trans; [apply Rabs_triang|]; lra|exact HSa]].
  replace (rnd64 (T + S) - (Y + Py)) with ((rnd64 (T + S) - (T + S)) + ((T - Y) + (S - Py))) by ring.
  eapply Rle_trans; [apply Rabs_triang|]. pose proof (Rabs_triang (T - Y) (S - Py)). pose proof (Rabs_triang T S).
  assert (v64 * Rabs (T + S) <= v64 * (G * (A + Pa))) by (apply Rmult_le_compat_l; lra). lra.
Qed.
