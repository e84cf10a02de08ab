(** When the overlap integral is defined, integrands for which it fails, and its
    accuracy for piecewise polynomials. *)
From Coquelicot Require Import Coquelicot.
From Coq Require Import Reals Lra Lia Arith ZArith Bool.
From Coq Require Import List Sorting.Sorted Sorting.Permutation.
From Verif.Model Require Import Base Util Num Gauss Kronrod Poly Overlap.
From Verif.Spec Require Import SGauss SPoly SFT SBasis SOverlap.
From Verif.Proofs Require Import BaseFacts LegFacts GaussFacts GaussExact GaussExamples KronrodFacts PPolyFacts AugmentProps ComputeMerged BasisPhys OverlapTiles OverlapFacts.
Import ListNotations.
Open Scope R_scope.
Notation length := List.length.

(** Nodes lie strictly inside their interval. *)
Lemma nodes_inside s t x : s < t -> In x (nodes (s, t)) -> s < x < t.
Proof.
  intros Hst Hx. rewrite seat_x in Hx. cbn [fst snd] in Hx. apply in_map_iff in Hx as (z & <- & Hz).
  pose proof kronrod_shape as (_ & _ & _ & _ & _ & F & _). rewrite Forall_forall in F. specialize (F z Hz). nra.
Qed.

Lemma pairs_seq (F : nat -> R) n a x y : In (x, y) (pairs (map F (seq a n))) -> exists k, (a <= k)%nat /\ (S k < a + n)%nat /\ x = F k /\ y = F (S k).
Proof.
  revert a. induction n as [|n IH]; intros a; [intros []|]. destruct n as [|n]; [intros []|].
  change (seq a (S (S n))) with (a :: S a :: seq (S (S a)) n). cbn [map]. rewrite pairs_cons. intros [[= <- <-]|H].
  - exists a. repeat split; lia.
  - change (F (S a) :: map F (seq (S (S a)) n)) with (map F (seq (S a) (S n))) in H. destruct (IH _ H) as (k & A & B & C & D).
    exists k. repeat split; auto; lia.
Qed.
Lemma cells_inside radix s t s' t' : (0 < radix)%nat -> s < t -> In (s', t') (cells radix (s, t)) -> s <= s' < t' /\ t' <= t.
Proof.
  intros Hr Hst H. rewrite cells_edge in H. apply pairs_seq in H as (k & _ & Hk & -> & ->).
  assert (0 < INR radix) by (apply lt_0_INR; lia). assert (0 < (t - s) / INR radix) by (apply Rdiv_lt_0_compat; lra).
  assert (INR (S k) <= INR radix) by (apply le_INR; lia). pose proof (pos_INR k). rewrite S_INR in *.
  assert (t = s + INR radix * ((t - s) / INR radix)) by (field; lra). repeat split; nra.
Qed.

Lemma sorted_pairs_lt e s t : StronglySorted Rlt e -> In (s, t) (pairs e) -> s < t /\ In s e /\ In t e /\ forall k, In k e -> k <= s \/ t <= k.
Proof.
  intros H. induction H as [|x e H IH F]; [intros []|]. destruct e as [|y e]; [intros []|]. rewrite pairs_cons. rewrite Forall_forall in F.
  intros [[= <- <-]|Hin].
  - split; [apply F; left; auto|]. split; [left; auto|]. split; [right; left; auto|]. intros k [<-|[<-|Hk]]; [lra|lra|].
    apply StronglySorted_inv in H as [_ Fy]. rewrite Forall_forall in Fy. specialize (Fy k Hk). lra.
  - destruct (IH Hin) as (A & B & C & D). repeat split; auto; try (right; auto; fail). intros k [<-|Hk]; auto.
    specialize (F s B). lra.
Qed.

Lemma collect_or_raise {A B} (f : A -> res B) l : is_ok (collect (map f l)) \/ exists x e, In x l /\ f x = Raise e /\ collect (map f l) = Raise e.
Proof.
  induction l as [|x l IH]; [left; exists []; auto|]. cbn [map collect]. destruct (f x) as [y|e] eqn:E.
  - cbn [bind]. destruct IH as [[ys ->]|(z & e & H1 & H2 & ->)]; [left; eexists; reflexivity|]. right. exists z, e. repeat split; auto. right; auto.
  - right. exists x, e. repeat split; auto. left; auto.
Qed.

Lemma cells_none radix iv : (0 < radix)%nat -> flat_map (cells radix) iv = [] -> iv = [].
Proof. intros Hr E. destruct iv as [|st r]; auto. cbn [flat_map] in E. apply app_eq_nil in E as [E _]. elim (cells_nonempty radix st Hr E). Qed.

Section Defined.
Variables (radix mp : nat) (p : vpoly) (f : R -> res (list R)) (rtol : xr) (kn : list R) (nc : nat).
Hypothesis Hradix : (0 < radix)%nat.
Hypothesis Hg : geom_ok (vgeom p).
Hypothesis Hglen : (0 < glen (vgeom p))%nat.
Hypothesis Hnc : (0 < nc)%nat.
Let a := gxmin (vgeom p).
Let b := gxmax (vgeom p).

Definition gap (st : R * R) : Prop := fst st < snd st /\ forall k, In k kn -> k <= fst st \/ snd st <= k.
Definition inside (st : R * R) : Prop := a <= fst st /\ snd st <= b.
Definition defined_at (st : R * R) : Prop := forall x, In x (nodes st) -> exists v, f x = Ok v /\ length v = nc.

Lemma sample_defined sh iv : iv <> [] -> (sh = None \/ sh = Some nc) -> (forall st, In st iv -> defined_at st) ->
  exists fx, sample f sh iv = Ok (nc, fx).
Proof.
  clear Hradix Hglen Hnc Hg. intros Hne Hsh Hd. unfold sample.
  destruct (collect_map_ok (fun st => collect (map f (nodes st))) iv) as [fx Hfx].
  { intros st Hst. apply collect_map_ok. intros x Hx. destruct (Hd st Hst x Hx) as (v & Hv & _). exists v. auto. }
  rewrite Hfx. cbn [bind]. assert (Hl : forall v, In v (concat fx) -> length v = nc).
  { intros v Hv. apply in_concat in Hv as (r & Hr & Hv). apply collect_map_nth in Hfx as [L Hfx]. apply In_nth_error in Hr as [i Hi].
    destruct (nth_error iv i) as [st|] eqn:Est; [|apply nth_error_None in Est; assert (nth_error fx i <> None) by congruence; apply nth_error_Some in H; lia].
    destruct (Hfx i st Est) as (r' & Hr' & Hi'). assert (r' = r) by congruence. subst r'.
    apply collect_map_nth in Hr' as [L' Hr']. apply In_nth_error in Hv as [j Hj].
    destruct (nth_error (nodes st) j) as [x|] eqn:Ex; [|apply nth_error_None in Ex; assert (nth_error r j <> None) by congruence; apply nth_error_Some in H; lia].
    destruct (Hr' j x Ex) as (v' & Hv' & Hj'). assert (v' = v) by congruence. subst v'.
    destruct (Hd st (nth_error_In _ _ Est) x (nth_error_In _ _ Ex)) as (v'' & A & B). assert (v'' = v) by congruence. subst. auto. }
  destruct (concat fx) as [|v0 rest] eqn:Ec.
  { destruct iv as [|st iv]; [congruence|]. apply collect_map_nth in Hfx as [L Hfx]. destruct (Hfx 0%nat st eq_refl) as (r & Hr & Hi).
    destruct fx as [|r' fx]; [discriminate|]. injection Hi as ->. cbn in Ec. apply app_eq_nil in Ec as [-> _].
    apply collect_map_nth in Hr as [L' _]. pose proof (nodes_nonempty st). destruct (nodes st); [congruence|discriminate]. }
  rewrite (proj2 (forallb_forall _ _)).
  - rewrite (Hl v0 (or_introl eq_refl)). destruct Hsh as [->| ->]; [|rewrite Nat.eqb_refl]; eauto.
  - intros v Hv. apply Nat.eqb_eq. rewrite (Hl v Hv), (Hl v0 (or_introl eq_refl)). reflexivity.
Qed.

Lemma vcall_arr_defined xs : (forall x, In x xs -> a <= x <= b) -> is_ok (vcall_arr p xs).
Proof.
  clear Hradix Hnc. intros H. unfold vcall_arr. rewrite (proj2 (forallb_forall _ _)).
  - cbn [negb]. destruct (collect_map_ok (split (vgeom p)) xs) as [ix ->].
    { intros x Hx. rewrite (split_ok _ Hg) by (apply H, Hx). eexists; reflexivity. }
    cbn [bind]. destruct (glen (vgeom p)); [lia|]. eexists; reflexivity.
  - intros x Hx. destruct (H x Hx) as [A B]. subst a b. unfold in_range. rewrite (proj2 (Rleb_true _ _) A), (proj2 (Rleb_true _ _) B). reflexivity.
Qed.

Lemma nodes_in_domain st x : gap st -> inside st -> In x (nodes st) -> a < x < b.
Proof. destruct st as [s t]. intros [H _] [A B] Hx. apply nodes_inside in Hx; auto. cbn in *. lra. Qed.

Lemma poly_values_defined iv : (forall st, In st iv -> gap st /\ inside st) -> is_ok (poly_values p iv).
Proof.
  intros H. unfold poly_values. rewrite (proj2 (forallb_forall _ _)).
  - cbn [negb]. apply collect_map_ok. intros st Hst. apply vcall_arr_defined. intros x Hx. destruct (H st Hst) as [A B].
    pose proof (nodes_in_domain st x A B Hx). lra.
  - intros x Hx. apply in_concat in Hx as (l & Hl & Hx). apply in_map_iff in Hl as (st & <- & Hst). destruct (H st Hst) as [A B].
    pose proof (nodes_in_domain st x A B Hx) as [H1 H2]. unfold in_range. rewrite (proj2 (Rleb_true _ _)), (proj2 (Rleb_true _ _)); auto; unfold a, b in *; lra.
Qed.

Hypothesis Hf : forall x, a < x < b -> ~ In x kn -> exists v, f x = Ok v /\ length v = nc.

Lemma gap_defined st : gap st -> inside st -> defined_at st.
Proof.
  intros G I x Hx. pose proof (nodes_in_domain st x G I Hx). apply Hf; auto. intros Hk. destruct G as [G1 G2]. destruct st as [s t].
  apply nodes_inside in Hx; auto. destruct (G2 x Hk); cbn in *; lra.
Qed.

Lemma levels_defined n : forall sh t iv, iv <> [] -> (sh = None \/ sh = Some nc) -> (forall st, In st iv -> gap st /\ inside st) ->
  (sh = None -> (0 < n)%nat /\ (length iv <= mp)%nat) ->
  exists t' w, levels n radix mp p f rtol sh t iv = Ok (t', Some nc, w).
Proof.
  induction n as [|n IH]; intros sh t iv Hne Hsh Hiv H0; cbn [levels].
  - destruct Hsh as [->| ->]; [destruct (H0 eq_refl); lia|]. exists t, true. reflexivity.
  - destruct (Nat.ltb_spec mp (length iv)).
    { destruct Hsh as [->| ->]; [destruct (H0 eq_refl); lia|]. exists t, true. reflexivity. }
    destruct (sample_defined sh iv Hne Hsh) as [fx Hfx]; [intros st Hst; apply gap_defined; apply (Hiv st Hst)|].
    destruct (poly_values_defined iv Hiv) as [px Hpx]. rewrite Hfx. cbn [bind]. rewrite Hpx. cbn [bind fst snd].
    rewrite cmax_some by auto. cbn [bind].
    apply sample_ok in Hfx as (F1 & _). apply poly_values_ok in Hpx. destruct (level_panels p f iv fx px F1 Hpx) as [Hspan Hps].
    cbv zeta in Hspan. set (ps := map2 (fun st d => make_panel st (fst d) (snd d)) iv (combine fx px)) in *.
    destruct (forallb _ ps) eqn:Eok; [eexists; eexists; reflexivity|].
    apply IH; [|auto| |discriminate].
    + intros E. assert (E' : map pspan (filter (fun q => negb (converged (length (vcols p)) nc rtol t ps q)) ps) = []).
      { exact (cells_none _ _ Hradix E). }
      apply map_eq_nil in E'. assert (forallb (converged (length (vcols p)) nc rtol t ps) ps = true); [|congruence].
      apply forallb_forall. intros q Hq. destruct (converged _ _ _ _ _ q) eqn:Eq; auto.
      assert (Hin : In q (filter (fun q => negb (converged (length (vcols p)) nc rtol t ps q)) ps)) by (apply filter_In; rewrite Eq; auto).
      rewrite E' in Hin. destruct Hin.
    + intros [s' t'] Hst. apply in_flat_map in Hst as ([s0 t0] & Hin & Hst). apply in_map_iff in Hin as (q & Eq & Hq). apply filter_In in Hq as [Hq _].
      destruct (Hiv (s0, t0)) as [[G1 G2] [I1 I2]]; [rewrite <- Hspan, <- Eq; apply in_map, Hq|]. cbn [fst snd] in *.
      apply cells_inside in Hst as [A B]; auto. split; split; cbn [fst snd]; try lra. intros k Hk. destruct (G2 k Hk); lra.
Qed.
End Defined.

(** The break points. *)
Lemma lt_sorted_ext l m : StronglySorted Rlt l -> StronglySorted Rlt m -> (forall x, In x l <-> In x m) -> l = m.
Proof.
  intros Hl. revert m. induction Hl as [|x l Hl IH F]; intros m Hm H.
  - destruct m as [|y m]; auto. exfalso. apply (proj2 (H y)). left; auto.
  - destruct m as [|y m]; [exfalso; apply (proj1 (H x)); left; auto|]. apply StronglySorted_inv in Hm as [Hm G].
    rewrite Forall_forall in F, G.
    assert (x = y).
    { destruct (proj1 (H x) (or_introl eq_refl)) as [E|Hx]; auto. destruct (proj2 (H y) (or_introl eq_refl)) as [E|Hy]; auto.
      specialize (F y Hy). specialize (G x Hx). lra. }
    subst y. f_equal. apply IH; auto. intros z. split; intros Hz.
    + destruct (proj1 (H z) (or_intror Hz)) as [<-|]; auto. specialize (F x Hz). lra.
    + destruct (proj2 (H z) (or_intror Hz)) as [<-|]; auto. specialize (G x Hz). lra.
Qed.
Lemma breaks_unique p points e : breaks (gknots (vgeom p)) points e -> e = start_knots p points.
Proof.
  intros H. pose proof (breaks_start p points) as H'. destruct points as [pts|]; [|exact H]. destruct H as [S1 I1], H' as [S2 I2].
  apply lt_sorted_ext; auto. intros x. rewrite I1, I2. tauto.
Qed.
Lemma breaks_sorted p points e : geom_ok (vgeom p) -> breaks (gknots (vgeom p)) points e -> StronglySorted Rlt e.
Proof. intros (_ & _ & S & _) H. destruct points; [apply H|cbn in H; subst; auto]. Qed.

Lemma knots_range g x : geom_ok g -> In x (gknots g) -> gxmin g <= x <= gxmax g.
Proof.
  intros (Hn & Hl & Hs & _) Hx. unfold gxmin, gxmax. apply (In_nth _ _ 0) in Hx as (i & Hi & <-).
  assert (L : forall i j, (i <= j)%nat -> (j < length (gknots g))%nat -> nth i (gknots g) 0 <= nth j (gknots g) 0).
  { intros i0 j H1 H2. destruct (Nat.eq_dec i0 j) as [->|]; [lra|]. left. apply PPolyFacts.sorted_nth_lt; auto. lia. }
  split; apply L; lia.
Qed.
Lemma ends_in g : geom_ok g -> In (gxmin g) (gknots g) /\ In (gxmax g) (gknots g).
Proof. intros (Hn & Hl & _). split; apply nth_In; lia. Qed.
Lemma ends_lt g : geom_ok g -> gxmin g < gxmax g.
Proof. intros (Hn & Hl & Hs & _). apply PPolyFacts.sorted_nth_lt; auto. lia. Qed.

Lemma breaks_contains knots points e x : breaks knots points e -> In x knots -> In x e.
Proof. destruct points as [pts|]; cbn; [intros [_ H] Hx; apply H; auto|intros ->; auto]. Qed.
Lemma breaks_range p points e : geom_ok (vgeom p) -> breaks (gknots (vgeom p)) points e ->
  (forall pts x, points = Some pts -> In x pts -> gxmin (vgeom p) <= x <= gxmax (vgeom p)) ->
  forall x, In x e -> gxmin (vgeom p) <= x <= gxmax (vgeom p).
Proof.
  intros Hg H Hp x Hx. destruct points as [pts|]; cbn in H.
  - destruct H as [_ H]. apply H in Hx as [Hx|Hx]; [apply knots_range; auto|eapply Hp; eauto].
  - subst. apply knots_range; auto.
Qed.

Lemma pairs_length e : length (pairs e) = pred (length e).
Proof.
  induction e as [|x e IH]; auto. destruct e as [|y e]; auto. rewrite pairs_cons. cbn [length pred] in *. rewrite IH. reflexivity.
Qed.

Lemma compute_start p f rtol radix ml mp points e : breaks (gknots (vgeom p)) points e ->
  compute_overlap p f rtol radix ml mp points =
  (do out <- levels ml radix mp p f rtol None totals0 (pairs e);
   let '(t, shape, warned) := out in match shape with None => Raise TypeError | Some nc => Ok (tvalue t, terror t, nc, warned) end).
Proof. intros H. rewrite (breaks_unique _ _ _ H). reflexivity. Qed.

Theorem overlap_defined p f rtol radix ml mp points e nc :
  fresh p -> breaks (gknots (vgeom p)) points e ->
  (forall pts x, points = Some pts -> In x pts -> gxmin (vgeom p) <= x <= gxmax (vgeom p)) ->
  (0 < nc)%nat -> (forall x, gxmin (vgeom p) < x < gxmax (vgeom p) -> ~ In x e -> exists v, f x = Ok v /\ length v = nc) ->
  (0 < radix)%nat -> (0 < ml)%nat -> (length e <= S mp)%nat ->
  exists val err warned, compute_overlap p f rtol radix ml mp points = Ok (val, err, nc, warned).
Proof.
  intros (Hg & Ho & Hl) Hb Hp Hnc Hf Hr Hml Hmp. rewrite (compute_start _ _ _ _ _ _ _ _ Hb).
  destruct (levels_defined radix mp p f rtol e nc Hr Hg ltac:(lia) Hnc Hf ml None totals0 (pairs e)) as (t & w & ->).
  - pose proof (ends_lt _ Hg). destruct (ends_in _ Hg) as [A B]. apply (breaks_contains _ _ _ _ Hb) in A, B.
    destruct e as [|x [|y e]]; [destruct A| |rewrite pairs_cons; discriminate]. destruct A as [A|[]], B as [B|[]]. lra.
  - auto.
  - intros [s t] Hst. destruct (sorted_pairs_lt _ _ _ (breaks_sorted _ _ _ Hg Hb) Hst) as (A & B & C & D).
    split; [split; auto|]. split; cbn; eapply (breaks_range _ _ _ Hg Hb Hp); auto.
  - intros _. rewrite pairs_length. split; lia.
  - cbn [bind]. eauto.
Qed.

Theorem overlap_not_started p f rtol radix ml mp points e :
  breaks (gknots (vgeom p)) points e -> ml = 0%nat \/ (S mp < length e)%nat -> compute_overlap p f rtol radix ml mp points = Raise TypeError.
Proof.
  intros Hb H. rewrite (compute_start _ _ _ _ _ _ _ _ Hb). destruct H as [->|H]; [reflexivity|].
  destruct ml; [reflexivity|]. cbn [levels]. rewrite (proj2 (Nat.ltb_lt _ _)); [reflexivity|]. rewrite pairs_length. lia.
Qed.

Lemma pairs_right e a x : StronglySorted Rlt e -> In a e -> In x e -> a < x -> exists t, In (a, t) (pairs e).
Proof.
  intros Hs Ha Hx Hlt. apply in_split in Ha as (l1 & l2 & ->). destruct l2 as [|t l2].
  - exfalso. apply in_app_or in Hx as [Hx|[->|[]]]; [|lra]. clear - Hs Hx Hlt. induction l1 as [|y l1 IH]; [destruct Hx|].
    cbn in Hs. apply StronglySorted_inv in Hs as [Hs F]. destruct Hx as [<-|Hx]; auto. rewrite Forall_forall in F.
    assert (y < a) by (apply F, in_or_app; right; left; auto). lra.
  - exists t. rewrite pairs_app, pairs_cons. apply in_or_app. right; left; auto.
Qed.
Lemma pairs_left e a x : StronglySorted Rlt e -> In a e -> In x e -> x < a -> exists s, In (s, a) (pairs e).
Proof.
  intros Hs. revert a x. induction Hs as [|y e Hs IH F]; intros a x Ha Hx Hlt; [destruct Ha|]. rewrite Forall_forall in F.
  destruct Ha as [->|Ha].
  - exfalso. destruct Hx as [->|Hx]; [lra|]. specialize (F x Hx). lra.
  - destruct e as [|z e]; [destruct Ha|]. rewrite pairs_cons. destruct (Req_dec z a) as [->|Hz]; [exists y; left; auto|].
    assert (z < a). { destruct Ha as [->|Ha]; [lra|]. apply StronglySorted_inv in Hs as [_ G]. rewrite Forall_forall in G. apply G, Ha. }
    destruct (IH a z Ha (or_introl eq_refl) H) as [s Hin]. exists s. right. exact Hin.
Qed.

Theorem overlap_outside p f rtol radix ml mp pts e x nc :
  fresh p -> breaks (gknots (vgeom p)) (Some pts) e -> In x pts -> x < gxmin (vgeom p) \/ gxmax (vgeom p) < x ->
  (forall x, exists v, f x = Ok v /\ length v = nc) -> (0 < ml)%nat -> (length e <= S mp)%nat ->
  compute_overlap p f rtol radix ml mp (Some pts) = Raise ValueError.
Proof.
  intros (Hg & Ho & Hl) Hb Hx Hout Hf Hml Hmp. rewrite (compute_start _ _ _ _ _ _ _ _ Hb).
  pose proof (breaks_sorted _ _ _ Hg Hb) as Hs. assert (Hxe : In x e) by (apply Hb; auto).
  destruct (ends_in _ Hg) as [A B]. apply (breaks_contains _ _ _ _ Hb) in A, B.
  assert (Hbad : exists st z, In st (pairs e) /\ In z (nodes st) /\ in_range (vgeom p) z = false).
  { assert (Hz : forall s t, s < t -> In (s, t) (pairs e) -> (t <= gxmin (vgeom p) \/ gxmax (vgeom p) <= s) -> exists st z, In st (pairs e) /\ In z (nodes st) /\ in_range (vgeom p) z = false).
    { intros s t Hst Hin Hor. pose proof (nodes_nonempty (s, t)) as Hne. destruct (nodes (s, t)) as [|z r] eqn:Ez; [congruence|].
      assert (Hzin : In z (nodes (s, t))) by (rewrite Ez; left; auto). exists (s, t), z. repeat split; auto. apply nodes_inside in Hzin; auto. unfold in_range.
      apply andb_false_iff. destruct Hor; [left|right]; destruct (Rleb _ _) eqn:E; auto; apply Rleb_true in E; lra. }
    destruct Hout as [H|H].
    - destruct (pairs_left _ _ _ Hs A Hxe H) as [s Hin]. pose proof (sorted_pairs_lt _ _ _ Hs Hin) as (Hlt & _). apply (Hz s _ Hlt Hin). left; lra.
    - destruct (pairs_right _ _ _ Hs B Hxe H) as [t Hin]. pose proof (sorted_pairs_lt _ _ _ Hs Hin) as (Hlt & _). apply (Hz _ t Hlt Hin). right; lra. }
  destruct Hbad as (st & z & Hst & Hz & Hr). destruct ml; [lia|]. cbn [levels].
  rewrite (proj2 (Nat.ltb_ge _ _)) by (rewrite pairs_length; lia).
  destruct (sample_defined f nc None (pairs e)) as [fx ->]; auto.
  { intros E. rewrite E in Hst. destruct Hst. }
  { intros st' _ y _. apply Hf. }
  cbn [bind]. unfold poly_values. destruct (forallb (in_range (vgeom p)) (concat (map nodes (pairs e)))) eqn:E; [|reflexivity].
  rewrite forallb_forall in E. rewrite E in Hr; [discriminate|]. apply in_concat. exists (nodes st). split; auto. apply in_map, Hst.
Qed.

(** Which exceptions there are. *)
Lemma levels_exceptions radix mp p f rtol n : geom_ok (vgeom p) -> (0 < glen (vgeom p))%nat -> forall sh t iv e, levels n radix mp p f rtol sh t iv = Raise e -> e = ValueError \/ exists x, f x = Raise e.
Proof.
  intros Hg Hl. induction n as [|n IH]; intros sh t iv e H; cbn [levels] in H; [discriminate|].
  destruct (Nat.ltb mp (length iv)); [discriminate|].
  destruct (sample f sh iv) as [[nc fx]|e'] eqn:Es; cbn [bind fst snd] in H.
  2:{ injection H as <-. unfold sample in Es. destruct (collect_or_raise (fun st => collect (map f (nodes st))) iv) as [[fx Hfx]|(st & e2 & _ & Hst & Hc)].
    - rewrite Hfx in Es. cbn [bind] in Es. destruct (concat fx); [injection Es as <-; auto|]. destruct (forallb _ _); [|injection Es as <-; auto].
      destruct sh as [k|]; [|discriminate]. destruct (Nat.eqb _ _); [discriminate|injection Es as <-; auto].
    - rewrite Hc in Es. cbn [bind] in Es. injection Es as <-. destruct (collect_or_raise f (nodes st)) as [[r Hr]|(x & e3 & _ & Hx & Hc')]; [congruence|].
      right. exists x. congruence. }
  destruct (poly_values p iv) as [px|e'] eqn:Ep; cbn [bind] in H.
  2:{ injection H as <-. left. unfold poly_values in Ep. destruct (forallb _ _) eqn:Er in Ep; cbn [negb] in Ep; [|congruence].
    exfalso. destruct (collect_map_ok (fun st => vcall_arr p (nodes st)) iv) as [r Hr]; [|congruence].
    intros st Hst. apply vcall_arr_defined; auto. intros x Hx. rewrite forallb_forall in Er. specialize (Er x).
    assert (in_range (vgeom p) x = true) by (apply Er, in_concat; exists (nodes st); split; auto; apply in_map, Hst).
    unfold in_range in H. apply andb_true_iff in H as [H1 H2]. apply Rleb_true in H1, H2. lra. }
  destruct nc as [|nc]; [rewrite cmax_none in H; injection H as <-; auto|]. rewrite cmax_some in H by lia. cbn [bind] in H.
  destruct (forallb _ _); [discriminate|]. eapply IH, H.
Qed.
Theorem overlap_exceptions p f rtol radix ml mp points e : fresh p -> compute_overlap p f rtol radix ml mp points = Raise e ->
  e = ValueError \/ e = TypeError \/ exists x, f x = Raise e.
Proof.
  intros (Hg & Ho & Hl) H. rewrite (compute_start _ _ _ _ _ _ _ _ (breaks_start p points)) in H.
  destruct (levels ml radix mp p f rtol None totals0 (pairs (start_knots p points))) as [[[t sh] w]|e'] eqn:E; cbn [bind] in H.
  - destruct sh; [discriminate|injection H as <-; auto].
  - injection H as <-. apply levels_exceptions in E; auto; [tauto|lia].
Qed.

(** An integrand whose product with one polynomial vanishes. *)
Lemma rsum_zero l : (forall x, In x l -> x = 0) -> rsum l = 0.
Proof. induction l as [|x l IH]; intros H; [reflexivity|]. rewrite rsum_cons, (H x (or_introl eq_refl)), IH; [lra|]. intros y Hy. apply H. right; auto. Qed.
Lemma quad_zero xs ws g : (forall x, In x xs -> g x = 0) -> quad xs ws g = 0.
Proof.
  revert ws. induction xs as [|x xs IH]; intros [|w ws] H; try reflexivity. unfold quad in *. cbn [map2]. rewrite rsum_cons, IH.
  - rewrite (H x (or_introl eq_refl)). lra.
  - intros y Hy. apply H. right; auto.
Qed.

Section Vanishing.
Variables (radix mp : nat) (p : vpoly) (f : R -> res (list R)) (rtol : xr) (l0 : nat) (u : R -> R).
Hypothesis Hl0 : (l0 < length (vcols p))%nat.
Hypothesis Hu : represents p l0 u.
Hypothesis Hzero : forall x v c, f x = Ok v -> u x * nth c v 0 = 0.

Lemma panel_zero q c : panel_ok p f q -> pint21 q l0 c = 0 /\ pint10 q l0 c = 0.
Proof.
  intros H. destruct (H l0 c u _ Hu (component_exists f c)) as [-> ->]. unfold panel31, panel15.
  assert (Z : forall x, u x * match f x with Ok v => nth c v 0 | Raise _ => 0 end = 0).
  { intros x. destruct (f x) as [v|] eqn:E; [apply (Hzero x v c E)|lra]. }
  rewrite !quad_zero by (intros; apply Z). lra.
Qed.
Lemma psum_zero (F : panel -> R) ps : (forall q, In q ps -> F q = 0) -> psum F ps = 0.
Proof. intros H. apply rsum_zero. intros x Hx. apply in_map_iff in Hx as (q & <- & Hq). auto. Qed.

Lemma levels_vanishing n : forall sh t iv t' sh' w, iv <> [] -> tmagn t l0 = 0 ->
  levels n radix mp p f rtol sh t iv = Ok (t', sh', w) -> (0 < radix)%nat ->
  w = true /\ (forall l c, tvalue t' l c = tvalue t l c) /\ (forall l c, terror t' l c = terror t l c).
Proof.
  induction n as [|n IH]; intros sh t iv t' sh' w Hne Ht H Hr; cbn [levels] in H; [injection H as <- <- <-; auto|].
  destruct (Nat.ltb mp (length iv)); [injection H as <- <- <-; auto|].
  destruct (sample f sh iv) as [[nc fx]|] eqn:Es; [|discriminate]. cbn [bind fst snd] in H.
  destruct (poly_values p iv) as [px|] eqn:Ep; [|discriminate]. cbn [bind] in H.
  apply sample_ok in Es as (F1 & _). apply poly_values_ok in Ep. destruct (level_panels p f iv fx px F1 Ep) as [Hspan Hps].
  cbv zeta in Hspan, Hps, H. set (ps := map2 (fun st d => make_panel st (fst d) (snd d)) iv (combine fx px)) in *.
  destruct nc as [|nc]; [rewrite cmax_none in H; discriminate|]. rewrite cmax_some in H by lia. cbn [bind] in H. rewrite Forall_forall in Hps.
  assert (Hno : forall q, In q ps -> converged (length (vcols p)) (S nc) rtol t ps q = false).
  { intros q Hq. destruct (converged _ _ _ _ _ q) eqn:E; auto. exfalso. unfold converged in E. rewrite forallb_forall in E.
    specialize (E l0 (proj2 (in_seq _ _ _) (conj (Nat.le_0_l _) Hl0))).
    assert (M0 : magnitude (S nc) t ps l0 = 0).
    { unfold magnitude. rewrite Ht. destruct (cmaxd_in (S nc) (fun c => psum (fun q => pmagn q l0 c) ps) ltac:(lia)) as (c & _ & ->).
      rewrite psum_zero; [lra|]. intros q' Hq'. unfold pmagn. rewrite (proj2 (panel_zero q' c (Hps q' Hq'))). apply Rabs_R0. }
    assert (D0 : cmaxd (S nc) (pdiff q l0) = 0).
    { destruct (cmaxd_in (S nc) (pdiff q l0) ltac:(lia)) as (c & _ & ->). unfold pdiff. destruct (panel_zero q c (Hps q Hq)) as [-> ->]. rewrite Rminus_eq_0. apply Rabs_R0. }
    rewrite M0, D0 in E. unfold xdiv in E. rewrite (proj2 (Reqb_true 0 0) eq_refl) in E. discriminate. }
  assert (Hfil : filter (converged (length (vcols p)) (S nc) rtol t ps) ps = []).
  { revert Hno. generalize (converged (length (vcols p)) (S nc) rtol t ps). generalize ps as qs. clear. intros qs P. induction qs as [|q qs IHq]; auto. intros H. cbn [filter]. rewrite (H q (or_introl eq_refl)). apply IHq. intros y Hy. apply H. right; auto. }
  rewrite Hfil in H. assert (Hps' : ps <> []) by (intros E; rewrite E in Hspan; cbn in Hspan; congruence).
  destruct (forallb _ ps) eqn:Eall.
  { exfalso. rewrite forallb_forall in Eall. destruct ps as [|q r]; [congruence|].
    specialize (Eall q (or_introl eq_refl)). rewrite (Hno q) in Eall by (left; auto). discriminate. }
  apply IH in H; auto.
  - destruct H as (A & B & C). split; [auto|]. split; intros l c; [rewrite B|rewrite C]; cbn [accumulate tvalue terror]; unfold psum; cbn; lra.
  - intros E. destruct ps as [|q r]; [congruence|]. cbn [filter] in E. rewrite (Hno q (or_introl eq_refl)) in E. cbn [negb map flat_map] in E.
    apply app_eq_nil in E as [E _]. elim (cells_nonempty radix _ Hr E).
  - cbn [accumulate tmagn]. rewrite Ht. destruct (cmaxd_in (S nc) (fun c => psum (fun q => pmagn q l0 c) []) ltac:(lia)) as (c & _ & ->). unfold psum; cbn; lra.
Qed.

Theorem overlap_vanishing ml points val err nc warned : geom_ok (vgeom p) -> (0 < radix)%nat ->
  compute_overlap p f rtol radix ml mp points = Ok (val, err, nc, warned) ->
  warned = true /\ (forall l c, val l c = 0) /\ (forall l c, err l c = 0).
Proof.
  intros Hg Hr H. pose proof (breaks_start p points) as Hb. rewrite (compute_start _ _ _ _ _ _ _ _ Hb) in H.
  destruct (levels ml radix mp p f rtol None totals0 (pairs (start_knots p points))) as [[[t sh] w]|] eqn:E; [|discriminate]. cbn [bind] in H.
  destruct sh as [k|]; [|discriminate]. injection H as <- <- -> ->.
  apply levels_vanishing in E; auto.
  pose proof (ends_lt _ Hg). destruct (ends_in _ Hg) as [A B]. apply (breaks_contains _ _ _ _ Hb) in A, B.
  destruct (start_knots p points) as [|x [|y e]]; [destruct A| |rewrite pairs_cons; discriminate]. destruct A as [A|[]], B as [B|[]]. lra.
Qed.
End Vanishing.
