(** Accuracy of the overlap integral for piecewise polynomial integrands. *)
From Coquelicot Require Import Coquelicot.
From Coq Require Import Reals Lra Lia Arith ZArith Bool.
From Coq Require Import List Sorting.Sorted Sorting.Permutation.
From Verif.Model Require Import Base Util Num Gauss Kronrod Poly Overlap.
From Verif.Spec Require Import SGauss SPoly SFT SBasis SOverlap.
From Verif.Proofs Require Import BaseFacts SumFacts IntFacts PolyFacts LegFacts GaussFacts GaussExact GaussExamples KronrodFacts PPolyFacts ComputeMerged OverlapTiles OverlapFacts OverlapMore.
Import ListNotations.
Open Scope R_scope.
Notation length := List.length.

(** A polynomial in local coordinates. *)
Lemma local_poly n a m h : exists c : nat -> R,
  (forall z, sumn n (fun k => a k * (h * z + m) ^ k) = sumn n (fun k => c k * z ^ k)) /\
  sumn n (fun k => Rabs (c k)) <= sumn n (fun k => Rabs (a k) * (Rabs m + Rabs h) ^ k).
Proof.
  revert a. induction n as [|n IH]; intros a.
  - exists (fun _ => 0). split; [reflexivity|]. cbn. lra.
  - destruct (IH (fun k => a (S k))) as (c & Hc & Hb).
    exists (fun k => (match k with O => a 0%nat | S j => if Nat.ltb j n then h * c j else 0 end) + (if Nat.ltb k n then m * c k else 0)).
    assert (Hm : forall z, sumn (S n) (fun k => (if Nat.ltb k n then m * c k else 0) * z ^ k) = m * sumn n (fun k => c k * z ^ k)).
    { intros z. cbn [sumn]. rewrite Nat.ltb_irrefl, <- sumn_scal. rewrite Rmult_0_l, Rplus_0_r. apply sumn_ext. intros k Hk. rewrite (proj2 (Nat.ltb_lt k n) Hk). ring. }
    split.
    + intros z. rewrite sumn_shift. rewrite (sumn_ext n _ (fun k => (h * z + m) * (a (S k) * (h * z + m) ^ k))) by (intros; simpl; ring).
      rewrite sumn_scal, Hc.
      rewrite (sumn_ext (S n) _ (fun k => (match k with O => a 0%nat | S j => if Nat.ltb j n then h * c j else 0 end) * z ^ k + (if Nat.ltb k n then m * c k else 0) * z ^ k)) by (intros; ring).
      rewrite sumn_plus, Hm, sumn_shift.
      rewrite (sumn_ext n (fun i => (if Nat.ltb i n then h * c i else 0) * z ^ S i) (fun k => (h * z) * (c k * z ^ k))).
      * rewrite sumn_scal. simpl. ring.
      * intros k Hk. rewrite (proj2 (Nat.ltb_lt k n) Hk). simpl. ring.
    + apply Rle_trans with (sumn (S n) (fun k => Rabs (match k with O => a 0%nat | S j => if Nat.ltb j n then h * c j else 0 end) + Rabs (if Nat.ltb k n then m * c k else 0))).
      { apply sumn_le. intros k _. apply Rabs_triang. }
      rewrite sumn_plus, sumn_shift. cbn [sumn]. rewrite Nat.ltb_irrefl, Rabs_R0.
      rewrite (sumn_ext n (fun k => Rabs (if Nat.ltb k n then h * c k else 0)) (fun k => Rabs h * Rabs (c k))) by (intros k Hk; rewrite (proj2 (Nat.ltb_lt k n) Hk); apply Rabs_mult).
      rewrite (sumn_ext n (fun k => Rabs (if Nat.ltb k n then m * c k else 0)) (fun k => Rabs m * Rabs (c k))) by (intros k Hk; rewrite (proj2 (Nat.ltb_lt k n) Hk); apply Rabs_mult).
      change (sumn n (fun k => Rabs (a k) * (Rabs m + Rabs h) ^ k) + Rabs (a n) * (Rabs m + Rabs h) ^ n) with (sumn (S n) (fun k => Rabs (a k) * (Rabs m + Rabs h) ^ k)).
      rewrite sumn_shift. rewrite (sumn_ext n (fun k => Rabs (a (S k)) * (Rabs m + Rabs h) ^ S k) (fun k => (Rabs m + Rabs h) * (Rabs (a (S k)) * (Rabs m + Rabs h) ^ k))) by (intros; simpl; ring).
      rewrite !sumn_scal. pose proof (Rabs_pos m). pose proof (Rabs_pos h).
      assert ((Rabs m + Rabs h) * sumn n (fun k => Rabs (c k)) <= (Rabs m + Rabs h) * sumn n (fun k => Rabs (a (S k)) * (Rabs m + Rabs h) ^ k)) by (apply Rmult_le_compat_l; [lra|exact Hb]).
      simpl pow. lra.
Qed.

Lemma ex_RInt_poly n c a b : ex_RInt (fun z => sumn n (fun k => c k * z ^ k)) a b.
Proof. apply (ex_RInt_continuous (V := R_CompleteNormedModule)). intros x _. apply (continuous_sumn n (fun k z => c k * z ^ k)). intros k _. apply continuous_scal2, continuous_pow. Qed.

Lemma quad_ext xs ws g g' : (forall x, In x xs -> g x = g' x) -> quad xs ws g = quad xs ws g'.
Proof.
  revert ws. induction xs as [|x xs IH]; intros [|w ws] H; try reflexivity. unfold quad in *. cbn [map2]. rewrite !rsum_cons, (H x (or_introl eq_refl)).
  f_equal. apply IH. intros y Hy. apply H. right; auto.
Qed.

Lemma panel15_poly n a M C s t g : (n <= 30)%nat -> s <= t -> Rabs s <= M -> Rabs t <= M ->
  (forall x, s < x < t -> g x = sumn n (fun k => a k * x ^ k)) -> sumn n (fun k => Rabs (a k) * M ^ k) <= C ->
  exists I, is_RInt g s t I /\ Rabs (panel15 s t g - I) <= / 10 ^ 13 * C * ((t - s) / 2).
Proof.
  intros Hn Hst Hs Ht Hg HC. destruct (Req_dec s t) as [->|Hne].
  - exists 0. split; [apply (is_RInt_point (V := R_CompleteNormedModule))|]. unfold panel15. replace ((t - t) / 2) with 0 by lra. rewrite !Rmult_0_l, Rmult_0_r, Rminus_0_r, Rabs_R0. lra.
  - assert (Hlt : s < t) by lra. destruct (local_poly n a ((t + s) / 2) ((t - s) / 2)) as (c & Hc & Hb).
    set (P := fun z => sumn n (fun k => c k * z ^ k)) in *.
    exists ((t - s) / 2 * RInt P (-1) 1). split.
    + apply (is_RInt_ext (V := R_NormedModule) (fun x => (t - s) / 2 * (/ ((t - s) / 2) * P (/ ((t - s) / 2) * x + - ((t + s) / 2) / ((t - s) / 2))))).
      { rewrite Rmin_left, Rmax_right by lra. intros x Hx. rewrite Hg by auto. unfold P. rewrite <- Rmult_assoc, Rinv_r, Rmult_1_l by lra.
        rewrite <- Hc. apply sumn_ext. intros k _. do 2 f_equal. field. lra. }
      apply (is_RInt_scal (V := R_NormedModule)). apply (is_RInt_comp_lin (V := R_CompleteNormedModule) P (/ ((t - s) / 2)) (- ((t + s) / 2) / ((t - s) / 2)) s t).
      replace (/ ((t - s) / 2) * s + - ((t + s) / 2) / ((t - s) / 2)) with (-1) by (field; lra).
      replace (/ ((t - s) / 2) * t + - ((t + s) / 2) / ((t - s) / 2)) with 1 by (field; lra).
      apply (RInt_correct (V := R_CompleteNormedModule)), ex_RInt_poly.
    + unfold panel15. rewrite (quad_ext _ _ _ P).
      * rewrite <- Rmult_minus_distr_l, Rabs_mult, (Rabs_pos_eq ((t - s) / 2)) by lra. rewrite Rmult_comm. apply Rmult_le_compat_r; [lra|].
        eapply Rle_trans; [apply (kronrod_15_error _ _ n c (near_refl _) (near_refl _) Hn)|].
        apply Rmult_le_compat_l; [left; apply Rinv_0_lt_compat, pow_lt; lra|]. eapply Rle_trans; [exact Hb|]. eapply Rle_trans; [|exact HC].
        apply sumn_le. intros k _. apply Rmult_le_compat_l; [apply Rabs_pos|]. apply pow_incr. split; [pose proof (Rabs_pos ((t + s) / 2)); pose proof (Rabs_pos ((t - s) / 2)); lra|].
        rewrite (Rabs_pos_eq ((t - s) / 2)) by lra. apply Rabs_le_between in Hs. apply Rabs_le_between in Ht. unfold Rabs at 1. destruct (Rcase_abs _); lra.
      * intros z Hz. pose proof kronrod_shape as (_ & _ & _ & _ & _ & F & _). apply Forall_vsel in F. rewrite Forall_forall in F. specialize (F z Hz).
        unfold P. rewrite <- Hc. apply Hg. nra.
Qed.

(** Between break points. *)
Lemma chained_find {P : R -> R -> Prop} e s t x0 : chained P e -> e <> [] -> s < t -> hd x0 e <= s -> t <= last e x0 -> (forall k, In k e -> k <= s \/ t <= k) ->
  exists a b, P a b /\ a <= s /\ t <= b.
Proof.
  induction e as [|x e IH]; intros Hc Hne Hst Hh Hl Hk; [congruence|]. destruct e as [|y e]; [cbn in *; lra|].
  destruct Hc as [HP Hc]. destruct (Hk y (or_intror (or_introl eq_refl))).
  - apply IH; auto; [discriminate|]. intros k Hin. apply Hk. right; auto.
  - exists x, y. auto.
Qed.

Lemma over_pairs (g : R -> R) K e x0 : e <> [] ->
  (forall s t, In (s, t) (pairs e) -> exists I, is_RInt g s t I /\ Rabs (panel15 s t g - I) <= K * ((t - s) / 2)) ->
  exists I, is_RInt g (hd x0 e) (last e x0) I /\ Rabs (over (pairs e) (fun s t => panel15 s t g) - I) <= K * ((last e x0 - hd x0 e) / 2).
Proof.
  induction e as [|x e IH]; intros Hne H; [congruence|]. destruct e as [|y e].
  - exists 0. cbn [hd last]. split; [apply (is_RInt_point (V := R_CompleteNormedModule))|]. unfold over, rsum; cbn. rewrite Rminus_0_r, Rabs_R0. lra.
  - rewrite pairs_cons in *. destruct (H x y (or_introl eq_refl)) as (I1 & A1 & B1). destruct IH as (I2 & A2 & B2); [discriminate|intros; apply H; right; auto|].
    change (last (x :: y :: e) x0) with (last (y :: e) x0). cbn [hd] in *. exists (I1 + I2). split; [apply (is_RInt_Chasles (V := R_NormedModule)) with y; auto|].
    unfold over in *. cbn [map fst snd]. rewrite rsum_cons.
    match goal with |- Rabs (?p + ?o - (I1 + I2)) <= _ => replace (p + o - (I1 + I2)) with ((p - I1) + (o - I2)) by ring end.
    eapply Rle_trans; [apply Rabs_triang|]. lra.
Qed.

Lemma last_hd_rev {A} (l : list A) d : l <> [] -> hd_error (rev l) = Some (last l d).
Proof. intros H. destruct (exists_last H) as (l' & x & ->). rewrite rev_app_distr, last_last. reflexivity. Qed.
Lemma hd_hd_error {A} (l : list A) d : l <> [] -> hd_error l = Some (hd d l).
Proof. destruct l; [congruence|reflexivity]. Qed.

Lemma sorted_hd e a x0 : StronglySorted Rlt e -> In a e -> (forall x, In x e -> a <= x) -> hd x0 e = a.
Proof.
  intros Hs Ha H. destruct e as [|x e]; [destruct Ha|]. cbn. specialize (H x (or_introl eq_refl)). destruct Ha as [->|Ha]; auto.
  apply StronglySorted_inv in Hs as [_ F]. rewrite Forall_forall in F. specialize (F a Ha). lra.
Qed.
Lemma sorted_last e a x0 : StronglySorted Rlt e -> In a e -> (forall x, In x e -> x <= a) -> last e x0 = a.
Proof.
  intros Hs Ha H. assert (Hne : e <> []) by (intros ->; destruct Ha). destruct (exists_last Hne) as (l & x & ->). rewrite last_last.
  specialize (H x (in_or_app _ [x] _ (or_intror (or_introl eq_refl)))). apply in_app_or in Ha as [Ha|[->|[]]]; auto.
  clear Hne. induction l as [|y l IH]; [destruct Ha|]. cbn in Hs. apply StronglySorted_inv in Hs as [Hs F]. destruct Ha as [->|Ha]; auto.
  rewrite Forall_forall in F. assert (a < x) by (apply F, in_or_app; right; left; auto). lra.
Qed.

Theorem overlap_accuracy p f rtol radix ml mp points e val err nc n M C l c u h :
  fresh p -> (0 < radix)%nat -> breaks (gknots (vgeom p)) points e ->
  compute_overlap p f rtol radix ml mp points = Ok (val, err, nc, false) ->
  (forall pts x, points = Some pts -> In x pts -> gxmin (vgeom p) <= x <= gxmax (vgeom p)) ->
  represents p l u -> component f c h -> (n <= 30)%nat -> Rabs (gxmin (vgeom p)) <= M -> Rabs (gxmax (vgeom p)) <= M ->
  piecewise_bounded n M C e (fun x => u x * h x) ->
  exists I, is_RInt (fun x => u x * h x) (gxmin (vgeom p)) (gxmax (vgeom p)) I /\
    Rabs (val l c - I) <= / 10 ^ 13 * C * ((gxmax (vgeom p) - gxmin (vgeom p)) / 2).
Proof.
  intros (Hg & _) Hr Hb H Hp Hu Hc Hn HM1 HM2 Hpw.
  assert (Hs0 : StronglySorted Rle (gknots (vgeom p))).
  { pose proof Hg as (_ & _ & Hs & _). clear - Hs. induction Hs as [|x l Hs IH F]; constructor; auto. eapply Forall_impl; [|exact F]. intros; lra. }
  destruct (overlap_partition p f rtol radix ml mp points val err nc false Hr Hs0 H) as (t & D & iv & I & Ev & _ & Hw).
  rewrite <- (breaks_unique _ _ _ Hb) in I.
  assert (iv = []). { destruct iv; auto. assert (false = true); [apply Hw; discriminate|discriminate]. } subst iv.
  rewrite <- Ev, (proj1 (inv_value _ _ _ _ _ _ _ _ I l c u h Hu Hc)).
  destruct (inv_tiles _ _ _ _ _ _ _ _ I) as (e' & A & B & C1 & C2 & E). rewrite app_nil_r in E.
  rewrite (over_perm _ _ _ E). fold (pairs e').
  pose proof (breaks_sorted _ _ _ Hg Hb) as Hs. destruct (ends_in _ Hg) as [X1 X2]. apply (breaks_contains _ _ _ _ Hb) in X1, X2.
  pose proof (breaks_range _ _ _ Hg Hb Hp) as Hrange.
  assert (Hne : e <> []) by (intros ->; destruct X1).
  assert (Hne' : e' <> []) by (intros ->; apply (B _ X1)).
  pose proof (sorted_hd e _ 0 Hs X1 (fun x Hx => proj1 (Hrange x Hx))) as Hh. pose proof (sorted_last e _ 0 Hs X2 (fun x Hx => proj2 (Hrange x Hx))) as Hl.
  rewrite (hd_hd_error e' 0 Hne'), (hd_hd_error e 0 Hne) in C1. injection C1 as C1.
  rewrite (last_hd_rev e' 0 Hne'), (last_hd_rev e 0 Hne) in C2. injection C2 as C2.
  destruct (over_pairs (fun x => u x * h x) (/ 10 ^ 13 * C) e' 0 Hne') as (J & J1 & J2).
  - intros s s' Hin. pose proof (pairs_in _ _ _ Hin) as (l1 & l2 & El). subst e'.
    pose proof A as A'. apply sorted_app in A' as (A1 & A2 & A3). apply StronglySorted_inv in A2 as [A2 A4]. apply StronglySorted_inv in A2 as [A2 A5]. rewrite Forall_forall in A4, A5.
    assert (Hss : s <= s') by (apply A4; left; auto).
    assert (Hends : gxmin (vgeom p) <= s /\ s' <= gxmax (vgeom p)).
    { split.
      - rewrite <- Hh, <- C1. destruct l1 as [|y l1]; [cbn; lra|]. cbn [hd app]. apply A3; left; auto.
      - rewrite <- Hl, <- C2. destruct (exists_last (l := s' :: l2)) as (l3 & z & E3); [discriminate|]. change (l1 ++ s :: s' :: l2) with (l1 ++ [s] ++ s' :: l2). rewrite E3, !app_assoc, last_last.
        assert (In z (s' :: l2)) by (rewrite E3; apply in_or_app; right; left; auto). destruct H0 as [<-|H0]; [lra|auto]. }
    destruct (Req_dec s s') as [->|Hd].
    + exists 0. split; [apply (is_RInt_point (V := R_CompleteNormedModule))|]. unfold panel15. replace ((s' - s') / 2) with 0 by lra. rewrite !Rmult_0_l, Rmult_0_r, Rminus_0_r, Rabs_R0. lra.
    + destruct (chained_find e s s' 0 Hpw Hne) as (a & b & (co & Hco & Hsum) & Ha & Hb'); try lra.
      * intros k Hk. apply B in Hk. apply in_app_or in Hk as [Hk|[<-|[<-|Hk]]]; try lra; [left; apply A3; [auto|left; auto]|right; auto].
      * apply (panel15_poly n co M C); auto.
        -- apply Rabs_le_between in HM1. apply Rabs_le_between in HM2. apply Rabs_le. lra.
        -- apply Rabs_le_between in HM1. apply Rabs_le_between in HM2. apply Rabs_le. lra.
        -- intros x Hx. apply Hco. lra.
  - rewrite C1, C2, Hh, Hl in J1. rewrite C1, C2, Hh, Hl in J2. exists J. auto.
Qed.
