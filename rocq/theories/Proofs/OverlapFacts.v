(** Facts about the adaptive overlap integral: what one interval contributes and
    the invariant of the refinement loop. *)
From Coq Require Import Reals Lra Lia Arith ZArith Bool.
From Coq Require Import List Sorting.Sorted Sorting.Permutation.
From Verif.Model Require Import Base Util Num Gauss Kronrod Poly Overlap.
From Verif.Spec Require Import SGauss SBasis SOverlap.
From Verif.Proofs Require Import BaseFacts GaussFacts GaussExact GaussExamples KronrodFacts PPolyFacts AugmentProps ComputeMerged BasisPhys OverlapTiles.
Import ListNotations.
Open Scope R_scope.
Notation length := List.length.

Lemma forallb_concat {A} (P : A -> bool) ll l : forallb P (concat ll) = true -> In l ll -> forallb P l = true.
Proof. intros H Hl. rewrite forallb_forall in *. intros x Hx. apply H, in_concat. exists l. auto. Qed.

(** One row of an evaluated set. *)
Lemma vcall_arr_row p xs px l u : vcall_arr p xs = Ok px -> represents p l u -> xs <> [] -> nth l px [] = map u xs.
Proof.
  intros H Hu Hne. unfold vcall_arr in H. destruct (forallb (in_range (vgeom p)) xs) eqn:Er; [|discriminate]. cbn [negb] in H.
  destruct (collect (map (split (vgeom p)) xs)) as [ix|] eqn:Eix; [|discriminate]. cbn [bind] in H.
  apply collect_map_nth in Eix as [Elen Enth]. rewrite forallb_forall in Er.
  assert (Hval : forall x, In x xs -> value p (Z.of_nat l) x = Ok (u x)).
  { intros x Hx. apply Hu. specialize (Er x Hx). unfold in_range in Er. apply andb_true_iff in Er as [A B]. apply Rleb_true in A, B. auto. }
  destruct (glen (vgeom p)) as [|k] eqn:Eg; [discriminate|]. injection H as <-.
  assert (Hc : exists c, nth_error (vcols p) l = Some c).
  { destruct xs as [|x xs]; [congruence|]. specialize (Hval x (or_introl eq_refl)). unfold value in Hval.
    destruct (split (vgeom p) x); [|discriminate]. cbn [bind] in Hval. rewrite pyindex_nat in Hval.
    destruct (nth_error (vcols p) l) as [c|]; [eauto|discriminate]. }
  destruct Hc as [c Hc]. erewrite nth_error_nth; [|apply map_nth_error, Hc]. cbv beta.
  apply nth_ext with (d := 0) (d' := 0); rewrite !map_length; auto. intros i Hi.
  destruct (nth_error xs i) as [x|] eqn:Ex; [|apply nth_error_None in Ex; lia]. destruct (Enth i x Ex) as (a & Ha & Hia).
  rewrite (nth_error_nth _ _ 0 (map_nth_error u i xs Ex)).
  rewrite (nth_error_nth _ _ 0 (map_nth_error (fun a => legval (S k) (fun k0 => cdat c k0 (fst a)) (snd a) * gnorm (vgeom p) (fst a)) i ix Hia)).
  specialize (Hval x (nth_error_In _ _ Ex)). unfold value in Hval. rewrite Ha in Hval. cbn [bind] in Hval. rewrite pyindex_nat, Hc, Eg in Hval.
  injection Hval as ->. reflexivity.
Qed.

Lemma collect_fun (f : R -> res (list R)) c h xs fx : component f c h -> collect (map f xs) = Ok fx ->
  map (fun v => nth c v 0) fx = map h xs.
Proof.
  intros Hc H. apply collect_map_nth in H as [Hl H]. apply nth_ext with (d := 0) (d' := 0); rewrite !map_length; auto. intros i Hi.
  destruct (nth_error xs i) as [x|] eqn:Ex; [|apply nth_error_None in Ex; lia]. destruct (H i x Ex) as (v & Hv & Hi').
  rewrite (nth_error_nth _ _ 0 (map_nth_error h i xs Ex)), (nth_error_nth _ _ 0 (map_nth_error (fun v => nth c v 0) i fx Hi')).
  symmetry. apply Hc, Hv.
Qed.

Lemma map2_map_r {A B C D} (F : A -> C -> D) (G : B -> C) l m : map2 (fun a b => F a (G b)) l m = map2 F l (map G m).
Proof. revert m. induction l; intros [|b m]; simpl; congruence. Qed.
Lemma map2_diag {A B} (F : A -> A -> B) l : map2 F l l = map (fun x => F x x) l.
Proof. induction l; simpl; congruence. Qed.
Lemma map2_maps {A B C D E} (F : C -> D -> E) (G : A -> C) (H : B -> D) l m : map2 F (map G l) (map H m) = map2 (fun a b => F (G a) (H b)) l m.
Proof. revert m. induction l; intros [|b m]; simpl; congruence. Qed.

Lemma wsum_quad c row fx w (xs : list R) (u h : R -> R) : row = map u xs -> map (fun v => nth c v 0) fx = map h xs ->
  wsum c row fx w = quad xs w (fun x => u x * h x).
Proof.
  intros -> H. unfold wsum, quad. f_equal. rewrite (map2_map_r Rmult (fun v => nth c v 0)), H, map2_maps, map2_diag.
  rewrite <- (map_id w) at 1. rewrite map2_maps. clear. revert w. induction xs as [|x xs IH]; intros [|a w]; simpl; auto. f_equal; [ring|apply IH].
Qed.

Lemma seat_x st : nodes st = map (fun z => (snd st - fst st) / 2 * z + (snd st + fst st) / 2) kronrod_x.
Proof.
  unfold nodes, seat, nreseat. cbn [nr]. unfold reseat. cbn [rx rule_init]. destruct kronrod_rule_fields as (-> & _ & _ & -> & -> & _).
  apply map_ext. intros z. lra.
Qed.
Lemma seat_w st : rw (nr (seat st)) = map (fun w => w * ((snd st - fst st) / 2)) kronrod_w.
Proof.
  unfold seat, nreseat. cbn [nr]. unfold reseat. cbn [rw rule_init]. destruct kronrod_rule_fields as (_ & -> & _ & -> & -> & _).
  apply map_ext. intros w. f_equal. lra.
Qed.
Lemma seat_v st : nv (seat st) = map (fun w => w * ((snd st - fst st) / 2)) kronrod_v.
Proof.
  unfold seat, nreseat. cbn [nv]. destruct kronrod_rule_fields as (_ & _ & -> & -> & -> & _).
  apply map_ext. intros w. lra.
Qed.
Lemma nodes_nonempty st : nodes st <> [].
Proof. rewrite seat_x. intros H. apply map_eq_nil in H. pose proof kronrod_shape as (L & _). rewrite H in L. discriminate. Qed.

Lemma quad_seat (xs ws : list R) s t g :
  quad (map (fun z => (t - s) / 2 * z + (t + s) / 2) xs) (map (fun w => w * ((t - s) / 2)) ws) g =
  (t - s) / 2 * quad xs ws (fun z => g ((t - s) / 2 * z + (t + s) / 2)).
Proof.
  unfold quad. rewrite map2_maps. revert ws. induction xs as [|x xs IH]; intros [|w ws]; cbn [map2]; try (unfold rsum; simpl; lra).
  rewrite !rsum_cons, IH. ring.
Qed.

(** What one interval contributes. *)
Definition panel_ok (p : vpoly) (f : R -> res (list R)) (q : panel) : Prop :=
  forall l c u h, represents p l u -> component f c h ->
    pint21 q l c = panel31 (fst (pspan q)) (snd (pspan q)) (fun x => u x * h x) /\
    pint10 q l c = panel15 (fst (pspan q)) (snd (pspan q)) (fun x => u x * h x).

Lemma make_panel_ok p f st fx px : collect (map f (nodes st)) = Ok fx -> vcall_arr p (nodes st) = Ok px -> panel_ok p f (make_panel st fx px).
Proof.
  intros Hf Hp l c u h Hu Hc. cbn [pint21 pint10 make_panel pspan].
  pose proof (vcall_arr_row _ _ _ _ _ Hp Hu (nodes_nonempty st)) as Hrow. pose proof (collect_fun _ _ _ _ _ Hc Hf) as Hcol.
  split.
  - rewrite (wsum_quad _ _ _ _ _ _ _ Hrow Hcol), seat_x, seat_w. apply quad_seat.
  - assert (Hrow' : vsel (nth l px []) = map u (vsel (nodes st))) by (rewrite Hrow; apply vsel_map).
    assert (Hcol' : map (fun v => nth c v 0) (vsel fx) = map h (vsel (nodes st))) by (rewrite <- !vsel_map, Hcol; reflexivity).
    rewrite (wsum_quad _ _ _ _ _ _ _ Hrow' Hcol'), seat_x, seat_v, vsel_map. apply quad_seat.
Qed.

(** One level. *)
Lemma sample_ok f prev iv nc fx : sample f prev iv = Ok (nc, fx) ->
  Forall2 (fun st d => collect (map f (nodes st)) = Ok d) iv fx /\ iv <> [] /\ (forall k, prev = Some k -> nc = k) /\
  (forall st x v, In st iv -> In x (nodes st) -> f x = Ok v -> length v = nc).
Proof.
  unfold sample. destruct (collect (map (fun st => collect (map f (nodes st))) iv)) as [fx'|] eqn:E; [|discriminate]. cbn [bind].
  destruct (concat fx') as [|v0 rest] eqn:Ec; [discriminate|]. destruct (forallb _ (v0 :: rest)) eqn:Ef; [|discriminate].
  intros H. assert (fx = fx' /\ nc = length v0 /\ forall k, prev = Some k -> nc = k) as (-> & Hnc & Hp).
  { destruct prev as [k|].
    - destruct (Nat.eqb_spec (length v0) k); [|discriminate]. injection H as <- <-. repeat split; auto. congruence.
    - injection H as <- <-. repeat split; auto. discriminate. }
  assert (F2 : Forall2 (fun st d => collect (map f (nodes st)) = Ok d) iv fx').
  { clear - E. apply collect_ok in E. revert fx' E. induction iv; intros fx' E; inversion E; subst; constructor; auto. }
  repeat split; auto.
  - intros ->. inversion F2; subst. discriminate.
  - intros st x v Hst Hx Hv. rewrite <- Ec in Ef. rewrite forallb_forall in Ef.
    assert (In v (concat fx')).
    { apply in_concat. clear - F2 Hst Hx Hv. induction F2 as [|a b iv fx H F2 IH]; [destruct Hst|]. destruct Hst as [->|Hst].
      - exists b. split; [left; auto|]. apply collect_map_nth in H as [_ H]. apply In_nth_error in Hx as [i Hi].
        destruct (H i x Hi) as (y & Hy & Hn). assert (y = v) by congruence. subst. eapply nth_error_In; eauto.
      - destruct (IH Hst) as (b' & A & B). exists b'. split; [right|]; auto. }
    specialize (Ef v H0). apply Nat.eqb_eq in Ef. lia.
Qed.

Lemma poly_values_ok p iv px : poly_values p iv = Ok px -> Forall2 (fun st d => vcall_arr p (nodes st) = Ok d) iv px.
Proof.
  unfold poly_values. destruct (negb _); [discriminate|]. intros E. apply collect_ok in E. revert px E.
  induction iv; intros px E; inversion E; subst; constructor; auto.
Qed.

Lemma level_panels p f iv fx px :
  Forall2 (fun st d => collect (map f (nodes st)) = Ok d) iv fx -> Forall2 (fun st d => vcall_arr p (nodes st) = Ok d) iv px ->
  let ps := map2 (fun st d => make_panel st (fst d) (snd d)) iv (combine fx px) in
  map pspan ps = iv /\ Forall (panel_ok p f) ps.
Proof.
  intros F1. revert px. induction F1 as [|st d iv fx Hd F1 IH]; intros px F2; inversion F2; subst; cbn; [split; constructor|].
  destruct (IH _ H3) as [A B]. split; [f_equal; exact A|constructor; [apply make_panel_ok; auto|exact B]].
Qed.

(** Maxima over components. *)
Lemma rmax_list_ge l m x : rmax_list l = Some m -> In x l -> x <= m.
Proof.
  revert m. induction l as [|a l IH]; intros m; [discriminate|]. cbn [rmax_list]. destruct (rmax_list l) as [m'|] eqn:E.
  - intros [= <-] [->|H]; [apply Rmax_l|]. specialize (IH _ eq_refl H). pose proof (Rmax_r a m'). lra.
  - intros [= <-] [->|H]; [lra|]. destruct l; [destruct H|]. cbn in E. destruct (rmax_list l); discriminate.
Qed.
Lemma rmax_list_in l m : rmax_list l = Some m -> In m l.
Proof.
  revert m. induction l as [|a l IH]; intros m; [discriminate|]. cbn [rmax_list]. destruct (rmax_list l) as [m'|] eqn:E.
  - intros [= <-]. destruct (Rle_dec a m'); [rewrite Rmax_right by lra; right; auto|rewrite Rmax_left by lra; left; auto].
  - intros [= <-]. left; auto.
Qed.
Lemma rmax_list_some l : l <> [] -> exists m, rmax_list l = Some m.
Proof. destruct l; [congruence|]. intros _. cbn. destruct (rmax_list l); eauto. Qed.
Lemma cmax_some n g : (0 < n)%nat -> cmax n g = Ok (cmaxd n g).
Proof.
  intros Hn. unfold cmaxd, cmax. destruct (rmax_list_some (map g (seq 0 n))) as [m ->]; auto.
  destruct n; [lia|]. discriminate.
Qed.
Lemma cmax_none g : cmax 0 g = Raise ValueError.
Proof. reflexivity. Qed.
Lemma cmaxd_ge n g c : (c < n)%nat -> g c <= cmaxd n g.
Proof.
  intros Hc. unfold cmaxd, cmax. destruct (rmax_list_some (map g (seq 0 n))) as [m Hm]; [destruct n; [lia|discriminate]|].
  rewrite Hm. apply (rmax_list_ge _ _ _ Hm), in_map, in_seq. lia.
Qed.
Lemma cmaxd_in n g : (0 < n)%nat -> exists c, (c < n)%nat /\ cmaxd n g = g c.
Proof.
  intros Hn. unfold cmaxd, cmax. destruct (rmax_list_some (map g (seq 0 n))) as [m Hm]; [destruct n; [lia|discriminate]|].
  rewrite Hm. apply rmax_list_in in Hm. apply in_map_iff in Hm as (c & <- & Hc). apply in_seq in Hc. exists c. split; [lia|auto].
Qed.

Lemma xdiv_le a b r : 0 <= b -> xleb (xdiv a b) (Fin r) = true -> 0 < b /\ a <= r * b.
Proof.
  intros Hb. unfold xdiv. destruct (Reqb b 0) eqn:E.
  - destruct (Reqb a 0); discriminate.
  - intros H. cbn in H. apply Rleb_true in H. assert (b <> 0) by (intros ->; rewrite (proj2 (Reqb_true 0 0) eq_refl) in E; discriminate).
    split; [lra|]. apply (Rmult_le_compat_r b) in H; [|lra]. unfold Rdiv in H. rewrite Rmult_assoc, Rinv_l in H by auto. lra.
Qed.

Lemma over_app a b g : over (a ++ b) g = over a g + over b g.
Proof. unfold over. rewrite map_app, rsum_app. reflexivity. Qed.
Lemma over_perm a b g : Permutation a b -> over a g = over b g.
Proof. intros H. apply rsum_perm, Permutation_map, H. Qed.
Lemma over_psum (F : panel -> R) (g : R -> R -> R) ps : (forall q, In q ps -> F q = g (fst (pspan q)) (snd (pspan q))) ->
  psum F ps = over (map pspan ps) g.
Proof. intros H. unfold psum, over. rewrite map_map. f_equal. apply map_ext_in. exact H. Qed.
Lemma psum_le (F : panel -> R) (g : R -> R -> R) ps : (forall q, In q ps -> F q <= g (fst (pspan q)) (snd (pspan q))) ->
  psum F ps <= over (map pspan ps) g.
Proof.
  unfold psum, over. induction ps as [|q ps IH]; intros H; [cbn; lra|]. cbn [map]. rewrite !rsum_cons.
  specialize (IH (fun x Hx => H x (or_intror Hx))). specialize (H q (or_introl eq_refl)). lra.
Qed.
Lemma psum_nonneg F ps : (forall q, 0 <= F q) -> 0 <= psum F ps.
Proof. intros H. unfold psum. induction ps as [|q ps IH]; [cbn; lra|]. cbn [map]. rewrite rsum_cons. specialize (H q). lra. Qed.

Lemma filter_perm {A} (P : A -> bool) l : Permutation l (filter P l ++ filter (fun x => negb (P x)) l).
Proof.
  induction l as [|a l IH]; [constructor|]. cbn [filter]. destruct (P a); cbn [negb].
  - cbn [app]. constructor. exact IH.
  - rewrite <- Permutation_middle. constructor. exact IH.
Qed.

Lemma filter_none {A} (P : A -> bool) l : forallb P l = true -> filter (fun x => negb (P x)) l = [].
Proof. induction l as [|a l IH]; auto. cbn. intros H. apply andb_true_iff in H as [-> H]. auto. Qed.

(** B bounds the embedded rule applied to polynomial u and every component. *)
Definition majorant (f : R -> res (list R)) (nc : nat) (u : R -> R) (B : R -> R -> R) : Prop :=
  forall s t c h, (c < nc)%nat -> component f c h -> Rabs (panel15 s t (fun x => u x * h x)) <= B s t.
Lemma component_exists f c : component f c (fun x => match f x with Ok v => nth c v 0 | Raise _ => 0 end).
Proof. intros x v ->. reflexivity. Qed.

Section Loop.
Variables (radix max_points : nat) (p : vpoly) (f : R -> res (list R)) (rtol : xr) (kn : list R).
Hypothesis Hradix : (0 < radix)%nat.

Record inv (shape : option nat) (t : totals) (D iv : list (R * R)) : Prop := Inv {
  inv_tiles : tiles (D ++ iv) kn;
  inv_fresh : shape = None -> D = [];
  inv_nc : forall nc, shape = Some nc -> (0 < nc)%nat;
  inv_value : forall l c u h, represents p l u -> component f c h ->
    tvalue t l c = over D (fun a b => panel15 a b (fun x => u x * h x)) /\
    terror t l c = over D (fun a b => Rabs (panel31 a b (fun x => u x * h x) - panel15 a b (fun x => u x * h x)));
  inv_magn : forall l u B, represents p l u -> (forall nc, shape = Some nc -> majorant f nc u B) -> 0 <= tmagn t l <= over D B;
  inv_tol : forall r nc st, rtol = Fin r -> shape = Some nc -> In st D ->
    exists T, tiles T kn /\ In st T /\ forall l u B c h, (l < length (vcols p))%nat -> represents p l u -> majorant f nc u B -> (c < nc)%nat -> component f c h ->
      Rabs (panel31 (fst st) (snd st) (fun x => u x * h x) - panel15 (fst st) (snd st) (fun x => u x * h x)) <= r * over T B /\ 0 < over T B }.

Lemma magn_bound nc ps l u B : (0 < nc)%nat -> Forall (panel_ok p f) ps -> represents p l u -> majorant f nc u B ->
  0 <= cmaxd nc (fun c => psum (fun q => pmagn q l c) ps) <= over (map pspan ps) B.
Proof.
  intros Hnc Hps Hu HB. destruct (cmaxd_in nc (fun c => psum (fun q => pmagn q l c) ps) Hnc) as (c & Hc & ->). split.
  - apply psum_nonneg. intros q. apply Rabs_pos.
  - apply psum_le. intros q Hq. rewrite Forall_forall in Hps. specialize (Hps q Hq l c u _ Hu (component_exists f c)).
    unfold pmagn. rewrite (proj2 Hps). exact (HB _ _ c _ Hc (component_exists f c)).
Qed.

Lemma inv_step shape t D iv nc ps : inv shape t D iv -> (0 < nc)%nat -> (forall k, shape = Some k -> nc = k) ->
  map pspan ps = iv -> Forall (panel_ok p f) ps ->
  let ok := converged (length (vcols p)) nc rtol t ps in
  inv (Some nc) (accumulate nc t (filter ok ps)) (D ++ map pspan (filter ok ps)) (map pspan (filter (fun q => negb (ok q)) ps)).
Proof.
  intros I Hnc Hsh Hspan Hps ok. pose proof (Permutation_map pspan (filter_perm ok ps)) as HP. rewrite map_app, Hspan in HP.
  assert (Htl : tiles ((D ++ map pspan (filter ok ps)) ++ map pspan (filter (fun q => negb (ok q)) ps)) kn).
  { rewrite <- app_assoc. eapply tiles_perm; [|exact (inv_tiles _ _ _ _ I)]. apply Permutation_app_head, HP. }
  assert (Hpf : Forall (panel_ok p f) (filter ok ps)).
  { rewrite Forall_forall in *. intros q Hq. apply filter_In in Hq as [Hq _]. auto. }
  assert (Hmag : forall l u B, represents p l u -> majorant f nc u B -> forall k, shape = Some k -> majorant f k u B).
  { intros l u B _ HB k Hk. rewrite <- (Hsh k Hk). exact HB. }
  split; auto.
  - discriminate.
  - intros nc' [= <-]. auto.
  - intros l c u h Hu Hc. destruct (inv_value _ _ _ _ I l c u h Hu Hc) as [V E]. cbn [accumulate tvalue terror]. rewrite V, E, !over_app.
    rewrite Forall_forall in Hpf. split; f_equal.
    + apply (over_psum _ (fun a b => panel15 a b (fun x => u x * h x))). intros q Hq. exact (proj2 (Hpf q Hq l c u h Hu Hc)).
    + apply (over_psum _ (fun a b => Rabs (panel31 a b (fun x => u x * h x) - panel15 a b (fun x => u x * h x)))).
      intros q Hq. unfold pdiff. destruct (Hpf q Hq l c u h Hu Hc) as [-> ->]. reflexivity.
  - intros l u B Hu HB. specialize (HB nc eq_refl). pose proof (inv_magn _ _ _ _ I l u B Hu (Hmag l u B Hu HB)).
    cbn [accumulate tmagn]. rewrite over_app. pose proof (magn_bound nc _ l u B Hnc Hpf Hu HB). lra.
  - intros r nc' st Hr [= <-] Hst. apply in_app_or in Hst as [Hst|Hst].
    + destruct shape as [k|] eqn:Es.
      * rewrite (Hsh k eq_refl). exact (inv_tol _ _ _ _ I r k st Hr eq_refl Hst).
      * rewrite (inv_fresh _ _ _ _ I eq_refl) in Hst. destruct Hst.
    + apply in_map_iff in Hst as (q & <- & Hq). apply filter_In in Hq as [Hq Hok].
      exists (D ++ iv). split; [exact (inv_tiles _ _ _ _ I)|]. split; [apply in_or_app; right; rewrite <- Hspan; apply in_map, Hq|].
      intros l u B c h Hl Hu HB Hcn Hc. unfold ok, converged in Hok. rewrite forallb_forall in Hok.
      specialize (Hok l (proj2 (in_seq _ _ _) (conj (Nat.le_0_l _) Hl))). rewrite Hr in Hok.
      pose proof (inv_magn _ _ _ _ I l u B Hu (Hmag l u B Hu HB)) as Hm. pose proof (magn_bound nc ps l u B Hnc Hps Hu HB) as Hm'.
      assert (Hge : 0 <= magnitude nc t ps l <= over (D ++ iv) B) by (unfold magnitude; rewrite over_app, <- Hspan; lra).
      apply xdiv_le in Hok as [H0 H1]; [|lra].
      pose proof (cmaxd_ge nc (pdiff q l) c Hcn) as Hd. unfold pdiff at 1 in Hd. rewrite Forall_forall in Hps.
      destruct (Hps q Hq l c u h Hu Hc) as [A1 A2]. rewrite A1, A2 in Hd. split; [|lra].
      assert (0 <= r). { assert (0 <= Rabs (panel31 (fst (pspan q)) (snd (pspan q)) (fun x => u x * h x) - panel15 (fst (pspan q)) (snd (pspan q)) (fun x => u x * h x))) by apply Rabs_pos. nra. }
      nra.
Qed.

Lemma levels_inv n : forall shape t D iv t' sh' w, inv shape t D iv -> iv <> [] ->
  levels n radix max_points p f rtol shape t iv = Ok (t', sh', w) ->
  exists D' iv', inv sh' t' D' iv' /\ (w = true -> iv' <> []) /\ (w = false -> iv' = []).
Proof.
  induction n as [|n IH]; intros shape t D iv t' sh' w I Hne H; cbn [levels] in H.
  - injection H as <- <- <-. exists D, iv. split; [exact I|]. split; [auto|discriminate].
  - destruct (Nat.ltb max_points (length iv)); [injection H as <- <- <-; exists D, iv; split; [exact I|]; split; [auto|discriminate]|].
    destruct (sample f shape iv) as [[nc fx]|] eqn:Es; [|discriminate]. cbn [bind fst snd] in H.
    destruct (poly_values p iv) as [px|] eqn:Ep; [|discriminate]. cbn [bind] in H.
    apply sample_ok in Es as (F1 & _ & Hsh & _). apply poly_values_ok in Ep.
    destruct (level_panels p f iv fx px F1 Ep) as [Hspan Hps]. cbv zeta in Hspan, Hps, H.
    set (ps := map2 (fun st d => make_panel st (fst d) (snd d)) iv (combine fx px)) in *.
    destruct (Nat.eq_dec nc 0) as [->|Hnc]; [rewrite cmax_none in H; discriminate|]. rewrite cmax_some in H by lia. cbn [bind] in H.
    pose proof (inv_step shape t D iv nc ps I ltac:(lia) Hsh Hspan Hps) as I'. cbv zeta in I'.
    set (ok := converged (length (vcols p)) nc rtol t ps) in *.
    destruct (forallb ok ps) eqn:Eok.
    + injection H as <- <- <-. exists (D ++ map pspan (filter ok ps)), (map pspan (filter (fun q => negb (ok q)) ps)).
      split; [exact I'|]. split; [discriminate|]. intros _. replace (filter (fun q => negb (ok q)) ps) with (@nil panel); [reflexivity|].
      symmetry. apply filter_none. exact Eok.
    + assert (Hpend : map pspan (filter (fun q => negb (ok q)) ps) <> []).
      { intros E. apply map_eq_nil in E. assert (forallb ok ps = true); [|congruence]. apply forallb_forall. intros q Hq.
        destruct (ok q) eqn:Eq; auto. assert (In q (filter (fun q => negb (ok q)) ps)) by (apply filter_In; rewrite Eq; auto). rewrite E in H0. destruct H0. }
      apply (IH _ _ (D ++ map pspan (filter ok ps))) in H; auto.
      * destruct I'. split; auto. apply tiles_refine; auto.
      * destruct (map pspan (filter (fun q => negb (ok q)) ps)) as [|st r]; [congruence|]. cbn [flat_map].
        pose proof (cells_nonempty radix st Hradix). destruct (cells radix st); [congruence|discriminate].
Qed.

Lemma inv_start : StronglySorted Rle kn -> inv None totals0 [] (combine (removelast kn) (tl kn)).
Proof.
  intros H. split; cbn; auto; try discriminate.
  - apply tiles_start, H.
  - intros l u B _ _. unfold over, rsum. cbn. lra.
Qed.
End Loop.

Definition start_knots (p : vpoly) (points : option (list R)) : list R :=
  match points with None => gknots (vgeom p) | Some pts => runique (gknots (vgeom p) ++ pts) end.
Lemma breaks_start p points : breaks (gknots (vgeom p)) points (start_knots p points).
Proof.
  destruct points as [pts|]; cbn; auto. split; [apply runique_sorted|]. intros x. rewrite runique_in, in_app_iff. tauto.
Qed.
Lemma start_sorted p points : StronglySorted Rle (gknots (vgeom p)) -> StronglySorted Rle (start_knots p points).
Proof.
  destruct points as [pts|]; cbn; auto. intros _. pose proof (runique_sorted (gknots (vgeom p) ++ pts)) as H.
  induction H as [|a l H IH F]; constructor; auto. eapply Forall_impl; [|exact F]. intros; lra.
Qed.

(** The whole computation. *)
Theorem overlap_partition p f rtol radix ml mp points val err nc warned :
  (0 < radix)%nat -> StronglySorted Rle (gknots (vgeom p)) ->
  compute_overlap p f rtol radix ml mp points = Ok (val, err, nc, warned) ->
  exists t D iv, inv p f rtol (start_knots p points) (Some nc) t D iv /\ tvalue t = val /\ terror t = err /\ (warned = true <-> iv <> []).
Proof.
  intros Hr Hs H. unfold compute_overlap in H. fold (start_knots p points) in H. cbv zeta in H.
  destruct (levels ml radix mp p f rtol None totals0 (combine (init (start_knots p points)) (tl (start_knots p points)))) as [[[t sh] w]|] eqn:E; [|discriminate].
  cbn [bind] in H. destruct sh as [k|]; [|discriminate]. injection H as <- <- -> ->.
  destruct (combine (init (start_knots p points)) (tl (start_knots p points))) as [|st iv0] eqn:Ei.
  { destruct ml; cbn in E; discriminate. }
  pose proof (inv_start p f rtol _ (start_sorted p points Hs)) as I0. change (removelast (start_knots p points)) with (init (start_knots p points)) in I0.
  rewrite Ei in I0. destruct (levels_inv radix mp p f rtol (start_knots p points) Hr ml None totals0 [] (st :: iv0) t (Some nc) warned I0) as (D & iv & I & A & B); auto; [discriminate|].
  exists t, D, iv. split; [exact I|]. split; [auto|]. split; [auto|]. split; [exact A|]. intros H. destruct warned; [auto|elim H; auto].
Qed.
