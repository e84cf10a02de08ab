(** Searches for sign changes and extrema among computed values. *)
From Coq Require Import Reals ZArith Arith Bool Lra Lia.
From Coq Require Import List Sorting.Sorted Permutation.
From Verif.Model Require Import Base Num Roots Matsubara DefaultsIEEE MatsubaraIEEE.
From Verif.Spec Require Import SRoots SMatsubara SMatsubaraIEEE.
From Verif.Proofs Require Import BaseFacts RootsFacts RootsDiscr RootsExtr MatsubaraFacts DefaultMatsubara.
Import ListNotations.
Open Scope R_scope.
Notation length := List.length.

Lemma sign_negative v : sign_of v = true <-> negative v.
Proof.
  unfold sign_of, negative. destruct (Reqb (fst v) 0) eqn:E.
  - apply Reqb_true in E. rewrite E. split; [intros; right; auto|intros [H|[_ H]]; [lra|auto]].
  - assert (fst v <> 0). { intros X. apply Reqb_true in X. congruence. }
    rewrite Rltb_true. split; [auto|intros [H1|[H1 _]]; [auto|contradiction]].
Qed.
Lemma sign_differs v w : sign_of v <> sign_of w <-> (negative v /\ ~ negative w) \/ (~ negative v /\ negative w).
Proof.
  rewrite <- !sign_negative. destruct (sign_of v), (sign_of w); split; intros H; try congruence; try (left; split; congruence); try (right; split; congruence);
    destruct H as [[A B]|[A B]]; congruence.
Qed.
Lemma falls_sign rd v w : diff_sign rd v w = true <-> falls rd v w.
Proof.
  unfold diff_sign, falls. cbv zeta. destruct (Reqb (rd (fst w - fst v)) 0) eqn:E.
  - apply Reqb_true in E. rewrite E. rewrite !andb_true_iff, !Reqb_true, negb_true_iff. split; [intros; right; tauto|intros [H|H]; [lra|tauto]].
  - assert (rd (fst w - fst v) <> 0). { intros X. apply Reqb_true in X. congruence. }
    rewrite Rltb_true. split; [auto|intros [H1|[H1 _]]; [auto|contradiction]].
Qed.

(** A function with the given values on distinct points. *)
Lemma value_function {V} (d : V) (l : list Z) : forall v : list V, NoDup l -> length v = length l -> exists h, map h l = v.
Proof.
  induction l as [|x l IH]; intros v Hn Hl.
  - exists (fun _ => d). destruct v; [reflexivity|discriminate].
  - destruct v as [|y v]; [discriminate|]. apply NoDup_cons_iff in Hn. destruct Hn as [Hx Hn].
    destruct (IH v Hn) as (h & Hh); [cbn in Hl; lia|]. exists (fun z => if Z.eq_dec z x then y else h z).
    cbn [map]. destruct (Z.eq_dec x x); [|congruence]. f_equal. rewrite <- Hh. apply map_ext_in. intros z Hz.
    destruct (Z.eq_dec z x); [subst; contradiction|reflexivity].
Qed.
Lemma sorted_nodup (l : list Z) : StronglySorted Z.lt l -> NoDup l.
Proof.
  induction 1 as [|x l Hs IH Hf]; constructor; auto. intros Hx. rewrite Forall_forall in Hf. specialize (Hf x Hx). lia.
Qed.

Section Search.
Variable f : sampled.
Hypothesis Hf : shaped f.

Lemma grid_function grid : StronglySorted Z.lt grid -> exists h, f grid = map h grid /\ forall x, In x grid -> seen f grid x (h x).
Proof.
  intros Hs. destruct (value_function (0, false) grid (f grid) (sorted_nodup _ Hs) (Hf grid)) as (h & Hh).
  exists h. split; [auto|]. intros x Hx. apply In_nth_error in Hx. destruct Hx as (i & Hi). exists i. split; [exact Hi|].
  rewrite <- Hh, nth_error_map, Hi. reflexivity.
Qed.
Lemma seen_unique grid h x v : f grid = map h grid -> seen f grid x v -> v = h x /\ In x grid.
Proof.
  intros E (i & H1 & H2). rewrite E, nth_error_map, H1 in H2. injection H2 as <-. split; [reflexivity|]. exact (nth_error_In _ _ H1).
Qed.

(** * Bisection *)
Notation br := (bracket Z (R * bool)).
Definition wf (c : br) : Prop :=
  (ba c < bb c)%Z /\ computed f (ba c) (bfa c) /\ computed f (bb c) (bfb c) /\ sign_of (bfa c) <> sign_of (bfb c).
Definition rel (c : br) (r : Z) : Prop := (ba c <= r < bb c)%Z /\ changes f r.

Lemma halve_ok c fm : wf c -> zfound c = false -> computed f (zmid c) fm ->
  wf (halve_with c (zmid c) fm) /\ (width (halve_with c (zmid c) fm) < width c)%nat /\ (forall r, rel (halve_with c (zmid c) fm) r -> rel c r).
Proof.
  intros (H1 & H2 & H3 & H4) Hn Hm. pose proof (zmid_range c H1) as Hr. unfold zfound in Hn. apply Z.eqb_neq in Hn.
  unfold halve_with. destruct (Bool.eqb (sign_of (bfa c)) (sign_of fm)) eqn:E; cbn [negb].
  - apply Bool.eqb_prop in E. split; [|split].
    + repeat split; cbn [ba bb bfa bfb]; auto; [lia|congruence].
    + unfold width. cbn [ba bb]. lia.
    + intros r [A B]. cbn [ba bb] in A. split; auto. lia.
  - apply Bool.eqb_false_iff in E. split; [|split].
    + repeat split; cbn [ba bb bfa bfb]; auto. lia.
    + unfold width. cbn [ba bb]. lia.
    + intros r [A B]. cbn [ba bb] in A. split; auto. lia.
Qed.
Lemma found_ok c : wf c -> zfound c = true -> rel c (zmid c).
Proof.
  intros (H1 & H2 & H3 & H4) Hn. pose proof (zfound_width c H1 Hn) as Hw. unfold zfound in Hn. apply Z.eqb_eq in Hn.
  split; [lia|]. exists (bfa c), (bfb c). rewrite <- Hn. split; auto. rewrite <- Hw. split; auto. apply sign_differs. exact H4.
Qed.

Definition next (k : list br) : list br := map2 (fun c fm => halve_with c (zmid c) fm) k (f (map zmid k)).
Lemma bisect_S fuel k : bisect_arr f (S fuel) k =
  if existsb zfound k then
    if forallb zfound k then Some (map zmid (filter zfound k))
    else match bisect_arr f fuel (filter (fun c => negb (zfound c)) k) with
         | Some more => Some (map zmid (filter zfound k) ++ more) | None => None end
  else bisect_arr f fuel (next k).
Proof. reflexivity. Qed.
Lemma bisect_mono fuel : forall k r, bisect_arr f fuel k = Some r -> bisect_arr f (S fuel) k = Some r.
Proof.
  induction fuel as [|fuel IH]; intros k r; [discriminate|]. rewrite bisect_S. rewrite (bisect_S (S fuel)).
  destruct (existsb zfound k); auto. destruct (forallb zfound k); auto.
  destruct (bisect_arr f fuel _) eqn:E; try discriminate. apply IH in E. rewrite E. auto.
Qed.

Lemma total_filter p k : Forall wf k -> existsb p k = true -> (total (filter (fun c => negb (p c)) k) < total k)%nat.
Proof.
  unfold total. induction 1 as [|c k Hc Hk IH]; cbn [existsb filter]; [discriminate|].
  assert (Hle : forall q, (list_sum (map width (filter q k)) <= list_sum (map width k))%nat).
  { clear. intros q; induction k as [|c k IH]; simpl; auto. destruct (q c); simpl; lia. }
  destruct (p c); cbn [negb orb].
  - intros _. destruct Hc as (Hc & _). specialize (Hle (fun c => negb (p c))). change (list_sum (map width (c :: k))) with (width c + list_sum (map width k))%nat. assert (1 <= width c)%nat by (unfold width; lia). lia.
  - intros H. specialize (IH H). change (list_sum (map width (c :: k))) with (width c + list_sum (map width k))%nat.
    change (list_sum (map width (c :: filter (fun c => negb (p c)) k))) with (width c + list_sum (map width (filter (fun c => negb (p c)) k)))%nat. lia.
Qed.

(** One round, bracket by bracket. *)
Definition stepped (c c' : br) : Prop := wf c' /\ (width c' < width c)%nat /\ forall r, rel c' r -> rel c r.
Lemma next_ok k : Forall wf k -> Forall (fun c => zfound c = false) k -> Forall2 stepped k (next k).
Proof.
  intros Hw Hn. unfold next. pose proof (Hf (map zmid k)) as Hl. rewrite map_length in Hl.
  assert (Hc : forall i c v, nth_error k i = Some c -> nth_error (f (map zmid k)) i = Some v -> computed f (zmid c) v).
  { intros i c v H1 H2. exists (map zmid k), i. rewrite nth_error_map, H1. auto. }
  revert Hl Hc. generalize (f (map zmid k)) as v. induction k as [|c k IH]; intros v Hl Hc; destruct v as [|y v]; try discriminate; [constructor|].
  inversion Hw; inversion Hn; subst. cbn [map2]. constructor.
  - apply halve_ok; auto. apply (Hc 0%nat); reflexivity.
  - apply IH; auto. intros i c' v' E1 E2. apply (Hc (S i)); auto.
Qed.
Lemma stepped_total k k' : k <> [] -> Forall2 stepped k k' -> (total k' < total k)%nat.
Proof.
  intros Hne H. destruct H as [|c c' k k' (_ & Hc & _) H]; [congruence|].
  assert (Hle : (total k' <= total k)%nat).
  { clear - H. induction H as [|c c' k k' (_ & Hc & _) H IH]; [lia|]. unfold total in *. cbn [map]. change (list_sum (?x :: ?l)) with (x + list_sum l)%nat. lia. }
  unfold total in *. cbn [map]. change (list_sum (?x :: ?l)) with (x + list_sum l)%nat. lia.
Qed.

Lemma bisect_spec N : forall k fuel, k <> [] -> Forall wf k -> (total k <= N)%nat -> (N <= fuel)%nat ->
  exists rs rs', bisect_arr f (S fuel) k = Some rs /\ Permutation rs rs' /\ Forall2 rel k rs'.
Proof.
  induction N as [N IH] using lt_wf_ind. intros k fuel Hne Hwf Ht Hfu. rewrite bisect_S.
  destruct (existsb zfound k) eqn:Ee.
  - assert (Hfound : Forall2 rel (filter zfound k) (map zmid (filter zfound k))).
    { clear - Hwf. induction Hwf as [|c k Hc Hk IH]; simpl; auto. destruct (zfound c) eqn:E; simpl; auto. constructor; auto. apply found_ok; auto. }
    destruct (forallb zfound k) eqn:Ea.
    + exists (map zmid (filter zfound k)), (map zmid (filter zfound k)). split; auto. split; auto.
      rewrite (forallb_filter_all _ _ Ea) in Hfound at 1. exact Hfound.
    + pose proof (total_filter zfound k Hwf Ee) as Hlt. destruct fuel as [|fuel]; [lia|].
      destruct (IH (N - 1)%nat ltac:(lia) (filter (fun c => negb (zfound c)) k) fuel) as (rs & rs' & E & P & F).
      * apply forallb_filter_nil; auto.
      * apply Forall_forall. intros c Hc. apply filter_In in Hc. rewrite Forall_forall in Hwf. apply Hwf; tauto.
      * lia.
      * lia.
      * rewrite E. destruct (merge_partition rel zfound k _ _ Hfound F) as (m & Pm & Fm).
        eexists; exists m; split; [reflexivity|]. split; auto. rewrite P; auto.
  - apply existsb_false_forall in Ee. pose proof (next_ok k Hwf Ee) as Hst. pose proof (stepped_total _ _ Hne Hst) as Hlt.
    destruct fuel as [|fuel]; [lia|].
    destruct (IH (N - 1)%nat ltac:(lia) (next k) fuel) as (rs & rs' & E & P & F).
    + intros E. rewrite E in Hst. inversion Hst. congruence.
    + clear - Hst. induction Hst as [|c c' k k' (H & _) _ IH]; constructor; auto.
    + lia.
    + lia.
    + rewrite E. exists rs, rs'. split; auto. split; auto.
      clear - F Hst. revert rs' F. induction Hst as [|c c' k k' (_ & _ & H) Hst IH]; intros rs' F; inversion F; subst; constructor; auto.
Qed.
Lemma bisect_ends k : k <> [] -> Forall wf k ->
  exists rs rs', ends_with (fun fuel => bisect_arr f fuel k) rs /\ Permutation rs rs' /\ Forall2 rel k rs'.
Proof.
  intros Hne Hwf. destruct (bisect_spec (total k) k (total k) Hne Hwf (le_n _) (le_n _)) as (rs & rs' & E & P & F).
  exists rs, rs'; split; auto. exists (S (total k)). intros fuel Hfuel. induction Hfuel; auto. apply bisect_mono; auto.
Qed.

(** * Sign changes *)
Definition iszero (v : R * bool) : bool := Reqb (fst v) 0.
Lemma find_all_arr_eq fuel grid h : f grid = map h grid ->
  find_all_arr f fuel grid = find_all sign_of iszero Z.leb (bisect_arr f fuel) h grid.
Proof. intros E. unfold find_all_arr. rewrite E. reflexivity. Qed.

Lemma find_all_arr_ok grid : StronglySorted Z.lt grid ->
  exists rs, ends_with (fun fuel => find_all_arr f fuel grid) rs /\ StronglySorted Z.lt rs /\
    (forall x v, seen f grid x v -> fst v = 0 -> In x rs) /\
    (forall a b va vb, adjacent grid a b -> seen f grid a va -> seen f grid b vb -> fst va * fst vb < 0 ->
       exists r, (In r rs /\ (a <= r < b)%Z /\ changes f r) /\ (forall r', In r' rs -> (a <= r' < b)%Z -> r' = r)) /\
    (forall r, In r rs -> (exists v, seen f grid r v /\ fst v = 0) \/
       (exists a b, adjacent grid a b /\ (a <= r < b)%Z /\ changes f r)).
Proof.
  intros Hg. destruct (grid_function grid Hg) as (h & Eh & Hh).
  set (hits := filter (fun x => iszero (h x)) grid).
  set (brs := map (mk h) (filter (sc_pair sign_of iszero h) (pairs grid))).
  assert (Hwf : Forall wf brs).
  { apply Forall_map, Forall_forall. intros [a b] Hin. apply filter_In in Hin as [H1 H2]. apply pairs_adjacent in H1.
    apply sc_pair_spec in H2 as (_ & _ & H2). destruct (adjacent_in _ _ _ H1) as [Ia Ib].
    split; [|split; [|split]]; cbn [mk ba bb bfa bfb fst snd]; auto; try (exists grid; auto).
    apply (adjacent_lt Z.lt) with grid; auto. }
  assert (Hcase : exists xb xb', ends_with (fun fuel => find_all_arr f fuel grid) (sort_by Z.leb (hits ++ xb)) /\
     Permutation xb xb' /\ Forall2 rel brs xb').
  { destruct brs as [|c brs'] eqn:Eb.
    - exists [], []. split; [|split; auto]. exists 0%nat. intros fuel _. rewrite (find_all_arr_eq fuel grid h Eh).
      rewrite find_all_unfold. fold brs. rewrite Eb. cbn zeta. rewrite app_nil_r. fold hits. f_equal. symmetry. apply zsort_of_sorted.
      apply StronglySorted_filter. eapply StronglySorted_impl; [|exact Hg]. intros; lia.
    - destruct (bisect_ends (c :: brs')) as (rs & rs' & (n & Hn) & P & F); auto; [discriminate|].
      exists rs, rs'. split; [|split; auto]. exists n. intros fuel Hfuel. rewrite (find_all_arr_eq fuel grid h Eh).
      rewrite find_all_unfold. fold brs. rewrite Eb. cbn zeta. rewrite Hn by auto. reflexivity. }
  destruct Hcase as (xb & xb' & Hends & P & F). exists (sort_by Z.leb (hits ++ xb)). split; auto.
  destruct (find_all_correct (V := R * bool) Z.lt Z.leb) with (signbit := sign_of) (iszero := iszero) (f := h)
    (rel := rel) (grid := grid) (brs := brs) (hits := hits) (xb := xb) (xb' := xb')
    (rs := sort_by Z.leb (hits ++ xb)) as (R1 & _ & R2 & R3 & R4); auto; try (intros; lia).
  { intros c r [H _]. lia. }
  split; auto. split; [|split].
  - intros x v Hx E. destruct (seen_unique grid h x v Eh Hx) as [-> Hin]. apply R2; auto. apply Reqb_true. exact E.
  - intros a b va vb Ha Hva Hvb Hlt. destruct (seen_unique grid h a va Eh Hva) as [-> _]. destruct (seen_unique grid h b vb Eh Hvb) as [-> _].
    destruct (R3 a b Ha) as (r & (Hin & Hr1 & Hr2) & Hu).
    { assert (fst (h a) <> 0 /\ fst (h b) <> 0) as [N1 N2] by (split; intros E; rewrite E in Hlt; lra).
      unfold iszero. split; [|split].
      - destruct (Reqb (fst (h a)) 0) eqn:E; auto. apply Reqb_true in E. contradiction.
      - destruct (Reqb (fst (h b)) 0) eqn:E; auto. apply Reqb_true in E. contradiction.
      - apply sign_differs. unfold negative. destruct (Rlt_le_dec (fst (h a)) 0) as [A|A].
        + left. split; [left; exact A|]. intros [X|[X _]]; [nra|contradiction].
        + right. split; [intros [X|[X _]]; [lra|contradiction]|]. left. nra. }
    exists r; split; auto. intros r' Hr' Hb. apply Hu; auto; lia.
  - intros r Hr. destruct (R4 r Hr) as [[Hin E]|(a & b & H1 & _ & H3 & H4)].
    + left. exists (h r). split; [auto|]. apply Reqb_true. exact E.
    + right. exists a, b. auto.
Qed.

(** * Extrema *)
Section Extrema.
Variable rd : R -> R.
Definition turn_h (h : Z -> R * bool) (p : Z * Z * Z) : bool :=
  let '(a, c, b) := p in negb (Bool.eqb (diff_sign rd (h a) (h c)) (diff_sign rd (h c) (h b))).
Lemma where_h h grid :
  let sgx := map2 (diff_sign rd) (init (map h grid)) (tl (map h grid)) in
  map2 (fun p q => negb (Bool.eqb p q)) (init sgx) (tl sgx) = map (turn_h h) (triples grid).
Proof.
  cbn zeta. induction grid as [|a [|c [|b l]] IH]; auto.
  change (triples (a :: c :: b :: l)) with ((a, c, b) :: triples (c :: b :: l)).
  refine (eq_trans _ (f_equal (cons (turn_h h (a, c, b))) IH)). reflexivity.
Qed.
Lemma turn_h_iff h grid a c b : f grid = map h grid -> (forall x, In x grid -> seen f grid x (h x)) ->
  In (a, c, b) (filter (turn_h h) (triples grid)) <-> turns_rd rd f grid a c b.
Proof.
  intros Eh Hh. rewrite filter_In, triples_adjacent. unfold turns_rd.
  assert (E : turn_h h (a, c, b) = true <-> ((falls rd (h a) (h c) /\ ~ falls rd (h c) (h b)) \/ (~ falls rd (h a) (h c) /\ falls rd (h c) (h b)))).
  { unfold turn_h. rewrite negb_true_iff, <- !falls_sign. destruct (diff_sign rd (h a) (h c)), (diff_sign rd (h c) (h b)); cbn; split; intros H; try discriminate; auto;
      destruct H as [[A B]|[A B]]; congruence. }
  rewrite E. split; intros [A B]; (split; [exact A|]).
  - assert (In a grid /\ In c grid /\ In b grid) as (Ia & Ic & Ib).
    { destruct A as (m1 & m2 & ->). repeat split; apply in_or_app; right; [left|right; left|right; right; left]; auto. }
    exists (h a), (h c), (h b). auto.
  - destruct B as (va & vc & vb & Sa & Sc & Sb & B).
    destruct (seen_unique grid h a va Eh Sa) as [-> _]. destruct (seen_unique grid h c vc Eh Sc) as [-> _]. destruct (seen_unique grid h b vb Eh Sb) as [-> _]. exact B.
Qed.

Definition edge_h (h : Z -> R * bool) (x y : Z) : list Z :=
  if Rltb (Rabs (fst (h y))) (Rabs (fst (h x))) || negb (Bool.eqb (sign_of (h x)) (sign_of (h y))) then [x] else [].
Lemma edge_h_in h grid x y r : f grid = map h grid -> (forall x, In x grid -> seen f grid x (h x)) -> In x grid -> In y grid ->
  In r (edge_h h x y) <-> r = x /\ outer_max_rd f grid x y.
Proof.
  intros Eh Hh Ix Iy. unfold edge_h, outer_max_rd.
  assert (E : (Rltb (Rabs (fst (h y))) (Rabs (fst (h x))) || negb (Bool.eqb (sign_of (h x)) (sign_of (h y))))%bool = true <->
     (Rabs (fst (h y)) < Rabs (fst (h x)) \/ (negative (h x) /\ ~ negative (h y)) \/ (~ negative (h x) /\ negative (h y)))).
  { rewrite orb_true_iff, Rltb_true, negb_true_iff, eqb_false_iff, sign_differs. tauto. }
  destruct (_ || _)%bool.
  - split; [intros [<-|[]]|intros [-> _]; left; auto]. split; auto. exists (h x), (h y). split; auto. split; auto. apply E. reflexivity.
  - split; [intros []|]. intros [_ (v & w & Sv & Sw & H)]. destruct (seen_unique grid h x v Eh Sv) as [-> _]. destruct (seen_unique grid h y w Eh Sw) as [-> _].
    apply E in H. discriminate.
Qed.

Lemma brs_fst (h : Z -> R * bool) (q : Z * Z * Z -> bool) grid :
  let w := map q (triples grid) in
  zip_brackets (mask (w ++ [false; false]) grid) (mask (false :: false :: w) grid)
               (mask (w ++ [false; false]) (map (fun v => Rabs (fst v)) (map h grid))) (mask (false :: false :: w) (map (fun v => Rabs (fst v)) (map h grid)))
  = map (mk3 (fun x => fst (h x))) (filter q (triples grid)).
Proof.
  pose proof (brs_eq (fun x => fst (h x : R * bool)) q grid) as H. cbn zeta in H |- *. rewrite <- H, !map_map. reflexivity.
Qed.

Lemma extrema_unfold fuel h x0 x1 l xl xl' l' : f (x0 :: x1 :: l) = map h (x0 :: x1 :: l) -> rev (x0 :: x1 :: l) = xl :: xl' :: l' ->
  discrete_extrema_arr rd f fuel (x0 :: x1 :: l) =
  match traverse (map (fun c => bisect_extremum (single f) fuel (ba c) (bb c) (bfa c) (bfb c))
                      (map (mk3 (fun x => fst (h x))) (filter (turn_h h) (triples (x0 :: x1 :: l))))) with
  | None => None
  | Some inner => Some (Ok (edge_h h x0 x1 ++ inner ++ edge_h h xl xl'))
  end.
Proof.
  intros Eh Hrev. unfold discrete_extrema_arr. rewrite Eh. cbv zeta.
  pose proof (where_h h (x0 :: x1 :: l)) as Hw. cbn zeta in Hw. rewrite Hw. clear Hw.
  pose proof (brs_fst h (turn_h h) (x0 :: x1 :: l)) as Hb. cbn zeta in Hb. rewrite Hb. clear Hb.
  destruct (traverse _) as [inner|]; [|reflexivity].
  cbn [map]. change (h x0 :: h x1 :: map h l) with (map h (x0 :: x1 :: l)). rewrite <- map_rev, Hrev. reflexivity.
Qed.

Lemma single_ok x : exists s, f [x] = [(single f x, s)].
Proof.
  unfold single. pose proof (Hf [x]) as H. destruct (f [x]) as [|[v s] [|? ?]]; try discriminate. exists s. reflexivity.
Qed.
Lemma inner_single a b r : inner_max (single f) a b r -> inner_max_rd f a b r.
Proof. intros H. exists (single f). split; [exact single_ok|exact H]. Qed.

Lemma inner_arr_ends grid (h : Z -> R * bool) : StronglySorted Z.lt grid ->
  exists inner,
    ends_with (fun fuel => traverse (map (fun c => bisect_extremum (single f) fuel (ba c) (bb c) (bfa c) (bfb c))
                      (map (mk3 (fun x => fst (h x))) (filter (turn_h h) (triples grid))))) inner /\
    Forall2 (fun p r => let '(a, _, b) := p in inner_max_rd f a b r) (filter (turn_h h) (triples grid)) inner.
Proof.
  intros Hs.
  assert (Hgap : Forall (fun p => let '(a, _, b) := p in (a + 2 <= b)%Z) (filter (turn_h h) (triples grid))).
  { apply Forall_forall. intros [[a c] b] Hin. apply filter_In in Hin as [Hin _]. pose proof (triples_gap grid a c b Hs Hin). lia. }
  induction Hgap as [|[[a c] b] ps Hab Hps IH].
  - exists []. split; auto. exists 0%nat. auto.
  - destruct IH as (inner & (n & Hn) & F).
    destruct (bisect_extremum_ok (single f) a b (Rabs (fst (h a))) (Rabs (fst (h b))) Hab) as (r & (m & Hm) & Hr).
    exists (r :: inner). split; [|constructor; auto].
    + exists (max n m). intros fuel Hfu. cbn [map traverse mk3 ba bb bfa bfb]. rewrite Hm by lia. rewrite Hn by lia. auto.
    + apply inner_single. exact Hr.
Qed.

Lemma extrema_arr_ok grid x0 x1 xl xl' l1 l2 :
  StronglySorted Z.lt grid -> grid = x0 :: x1 :: l1 -> grid = l2 ++ [xl'; xl] ->
  exists rs, ends_with (fun fuel => discrete_extrema_arr rd f fuel grid) (Ok rs) /\
    (In x0 rs <-> outer_max_rd f grid x0 x1) /\ (In xl rs <-> outer_max_rd f grid xl xl') /\
    (forall a c b, turns_rd rd f grid a c b -> exists r, In r rs /\ inner_max_rd f a b r) /\
    (forall r, In r rs -> r = x0 \/ r = xl \/ (exists a c b, turns_rd rd f grid a c b /\ inner_max_rd f a b r)) /\
    (no_double_turn_rd rd f grid -> StronglySorted Z.lt rs).
Proof.
  intros Hs E1 E2. destruct (grid_function grid Hs) as (h & Eh & Hh).
  destruct (inner_arr_ends grid h Hs) as (inner & (n & Hn) & F).
  assert (Hrev : rev grid = xl :: xl' :: rev l2) by (rewrite E2, rev_app_distr; auto).
  exists (edge_h h x0 x1 ++ inner ++ edge_h h xl xl').
  assert (Hx0min : forall y, In y grid -> y = x0 \/ (x0 < y)%Z).
  { intros y Hy. rewrite E1 in Hs, Hy. apply StronglySorted_inv in Hs as [_ Hfo]. destruct Hy as [|Hy]; auto. rewrite Forall_forall in Hfo. auto. }
  assert (Hxlmax : forall y, In y grid -> y = xl \/ (y < xl)%Z).
  { intros y Hy. rewrite E2 in Hs, Hy. replace (l2 ++ [xl'; xl]) with ((l2 ++ [xl']) ++ [xl]) in * by (rewrite <- app_assoc; auto).
    apply StronglySorted_app_inv in Hs as (_ & _ & Hc). apply in_app_or in Hy as [Hy|[|[]]]; auto. right. apply Hc; auto. left; auto. }
  assert (Ix0 : In x0 grid) by (rewrite E1; left; auto). assert (Ix1 : In x1 grid) by (rewrite E1; right; left; auto).
  assert (Ixl : In xl grid) by (rewrite E2; apply in_or_app; right; right; left; auto).
  assert (Ixl' : In xl' grid) by (rewrite E2; apply in_or_app; right; left; auto).
  assert (Hlt0l : (x0 < xl)%Z).
  { destruct (Hx0min xl Ixl) as [->|]; auto. exfalso.
    assert (x0 < x1)%Z. { rewrite E1 in Hs. apply StronglySorted_inv in Hs as [_ Hfo]. inversion Hfo; auto. }
    destruct (Hxlmax x1 Ix1); lia. }
  assert (Hinner : forall r, In r inner -> exists a c b, turns_rd rd f grid a c b /\ inner_max_rd f a b r).
  { intros r Hr. destruct (Forall2_in_r _ _ _ _ F Hr) as ([[a c] b] & Hin & HR). exists a, c, b. split; auto. apply (turn_h_iff h); auto. }
  assert (Hinb : forall r, In r inner -> (x0 < r < xl)%Z).
  { intros r Hr. destruct (Hinner r Hr) as (a & c & b & ((m1 & m2 & Em) & _) & (g & _ & Hab & _)).
    assert (Ha : In a grid) by (rewrite Em; apply in_or_app; right; left; auto).
    assert (Hb : In b grid) by (rewrite Em; apply in_or_app; right; right; right; left; auto).
    destruct (Hx0min a Ha), (Hxlmax b Hb); lia. }
  split; [|split; [|split; [|split; [|split]]]].
  - exists n. intros fuel Hfu. rewrite E1 in Hrev, Eh, Hn |- *. rewrite (extrema_unfold fuel h x0 x1 l1 xl xl' (rev l2) Eh Hrev). rewrite Hn by auto. auto.
  - rewrite !in_app_iff, !(edge_h_in h grid) by auto. split.
    + intros [[_ H]|[H|[H _]]]; auto; [|lia]. apply Hinb in H; lia.
    + auto.
  - rewrite !in_app_iff, !(edge_h_in h grid) by auto. split.
    + intros [[H _]|[H|[_ H]]]; auto; [lia|]. apply Hinb in H; lia.
    + auto.
  - intros a c b Ht. destruct (Forall2_in_l _ _ _ (a, c, b) F) as (r & Hr & HR). { apply (turn_h_iff h); auto. }
    exists r; split; auto. rewrite !in_app_iff; auto.
  - intros r Hr. rewrite !in_app_iff, !(edge_h_in h grid) in Hr by auto. destruct Hr as [[-> _]|[H|[-> _]]]; auto.
  - intros Hno.
    assert (Hno' : forall a c d b, adjacent3 grid a c d -> adjacent3 grid c d b -> turn_h h (a, c, d) = true -> turn_h h (c, d, b) = true -> False).
    { intros a c d b A1 A2 T1 T2. apply (Hno a c d b); apply (turn_h_iff h); auto; apply filter_In; rewrite triples_adjacent; auto. }
    assert (Hin_sorted : StronglySorted Z.lt inner).
    { clear - Hs F Hno'.
      assert (G : forall g, StronglySorted Z.lt g ->
        (forall a c d b, adjacent3 g a c d -> adjacent3 g c d b -> turn_h h (a, c, d) = true -> turn_h h (c, d, b) = true -> False) ->
        forall inner, Forall2 (fun p r => let '(a, _, b) := p in inner_max_rd f a b r) (filter (turn_h h) (triples g)) inner -> StronglySorted Z.lt inner).
      { clear. induction g as [|a g IH]; intros Hs Hno inner F; [inversion F; constructor|].
        destruct g as [|c [|d g]]; try (inversion F; constructor; fail).
        change (triples (a :: c :: d :: g)) with ((a, c, d) :: triples (c :: d :: g)) in F. cbn [filter] in F.
        assert (Hs' := Hs). apply StronglySorted_inv in Hs' as [Hs' _].
        assert (Hno' : forall a' c' d' b', adjacent3 (c :: d :: g) a' c' d' -> adjacent3 (c :: d :: g) c' d' b' ->
            turn_h h (a', c', d') = true -> turn_h h (c', d', b') = true -> False).
        { intros a' c' d' b' (p1 & p2 & E1) (q1 & q2 & E2). apply Hno.
          - exists (a :: p1), p2. simpl; congruence.
          - exists (a :: q1), q2. simpl; congruence. }
        destruct (turn_h h (a, c, d)) eqn:Et; [|apply IH; auto].
        inversion F as [|? r ? inner' HR F']; subst. constructor; [apply IH; auto|].
        apply Forall_forall. intros z Hz. destruct (Forall2_in_r _ _ _ _ F' Hz) as ([[p q] s] & Hin & HR').
        apply filter_In in Hin as [Hin Ht'].
        assert (Hdp : (d <= p)%Z).
        { destruct g as [|e g]; [destruct Hin|].
          change (triples (c :: d :: e :: g)) with ((c, d, e) :: triples (d :: e :: g)) in Hin.
          destruct Hin as [E|Hin].
          - injection E as <- <- <-. exfalso. apply (Hno a c d e); auto.
            + exists [], (e :: g); auto.
            + exists [a], g; auto.
          - change (In (p, q, s) (triples (d :: e :: g))) in Hin. apply triples_adjacent in Hin as (m1 & m2 & Em).
            apply StronglySorted_inv in Hs' as [Hs' _].
            destruct m1 as [|y m1]; simpl in Em; injection Em as -> Em; [lia|].
            apply StronglySorted_inv in Hs' as [_ Hfo]. rewrite Forall_forall in Hfo.
            apply Z.lt_le_incl, Hfo. rewrite Em. apply in_or_app; right; left; auto. }
        destruct HR as (g1 & _ & Hr & _), HR' as (g2 & _ & Hz' & _). lia. }
      eapply G; eauto. }
    assert (Hed : forall x y, StronglySorted Z.lt (edge_h h x y)). { intros x y. unfold edge_h. destruct (_ || _)%bool; repeat constructor. }
    apply StronglySorted_app; auto.
    + apply StronglySorted_app; auto. intros x y Hx Hy. apply (edge_h_in h grid) in Hy; auto. destruct Hy as [-> _]. apply Hinb in Hx; lia.
    + intros x y Hx Hy. apply (edge_h_in h grid) in Hx; auto. destruct Hx as [-> _].
      apply in_app_or in Hy as [Hy|Hy]; [apply Hinb in Hy; lia|]. apply (edge_h_in h grid) in Hy; auto. destruct Hy as [-> _]; auto.
Qed.
End Extrema.
End Search.
