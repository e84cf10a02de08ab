(** PiecewiseLegendreFT objects. *)
From Coq Require Import Reals ZArith Arith Bool Lra Lia Psatz.
From Coquelicot Require Import Coquelicot.
From Coq Require Import List Sorting.Sorted FunctionalExtensionality.
From Verif.Model Require Import Base Util Num Poly FT.
From Verif.Spec Require Import SPoly SFT.
From Verif.Proofs Require Import BaseFacts SumFacts IntFacts LegFacts PPolyFacts PPolyInt FTFacts FTModel.
Import ListNotations.
Open Scope R_scope.
Arguments legP : simpl never.

(** * Repeated derivatives *)
Lemma legder1_scal n c K k : legder1 n (fun j => c j * K) k = legder1 n c k * K.
Proof.
  unfold legder1. rewrite Rmult_assoc, <- sumn_scal_r. f_equal. apply sumn_ext. intros j _.
  destruct (_ && _); ring.
Qed.
Lemma cderiv_step m g c : cderiv 1 (gderiv m g) (cderiv m g c) = cderiv (S m) g c.
Proof.
  unfold cderiv. f_equal; [|simpl; ring].
  apply functional_extensionality. intros k. apply functional_extensionality. intros i. cbn [cdat].
  change (glen (gderiv m g)) with (legder_len m (glen g)). change (ginv (gderiv m g) i) with (ginv g i).
  rewrite (legder_S m). change (legder 1) with legder1. rewrite legder1_scal. cbn [pow]. ring.
Qed.
Lemma gderiv_step m g : gderiv 1 (gderiv m g) = gderiv (S m) g.
Proof. reflexivity. Qed.
Lemma vderiv_step m p : vderiv 1 (vderiv m p) = vderiv (S m) p.
Proof.
  unfold vderiv. cbn [vgeom vcols]. rewrite map_map. f_equal. apply map_ext. intros c. apply cderiv_step.
Qed.
Lemma legder_len_pos m n : (0 < n)%nat -> (0 < legder_len m n)%nat.
Proof. intros H. destruct m; [exact H|]. unfold legder_len. simpl. unfold legder1_len. lia. Qed.

Lemma vcall_val p x : geom_ok (vgeom p) -> (0 < glen (vgeom p))%nat -> gxmin (vgeom p) <= x <= gxmax (vgeom p) ->
  vcall p x = Ok (map (fun c => cval (vgeom p) c x) (vcols p)).
Proof.
  intros Hg Hl Hx. unfold vcall. rewrite (split_ok _ Hg) by auto. simpl. destruct (glen (vgeom p)) eqn:E; [lia|].
  f_equal. apply map_ext. intros c. unfold cval. rewrite E. auto.
Qed.
Lemma vderiv_0 p : vderiv 0 p = p.
Proof.
  destruct p as [g cols]. unfold vderiv. cbn [vgeom vcols]. f_equal.
  - destruct g. reflexivity.
  - rewrite <- (map_id cols) at 2. apply map_ext. intros [d s]. unfold cderiv. cbn [cdat csym]. f_equal; [|simpl; ring].
    apply functional_extensionality. intros k. apply functional_extensionality. intros i. simpl. ring.
Qed.
Lemma derivs_from_val p x : geom_ok (vgeom p) -> (0 < glen (vgeom p))%nat -> gxmin (vgeom p) <= x <= gxmax (vgeom p) ->
  forall k m, derivs_from k (vderiv m p) x =
    Ok (map (fun j => map (fun c => cval (gderiv j (vgeom p)) (cderiv j (vgeom p) c) x) (vcols p)) (seq (S m) k)).
Proof.
  intros Hg Hl Hx. induction k; intros m; [reflexivity|].
  cbn [derivs_from seq map]. rewrite vderiv_step. rewrite vcall_val.
  - cbn [bind]. rewrite IHk. cbn [bind vderiv vgeom vcols]. rewrite map_map. reflexivity.
  - apply gderiv_ok; auto.
  - apply legder_len_pos; auto.
  - exact Hx.
Qed.
Lemma derivs_val p x : geom_ok (vgeom p) -> (0 < glen (vgeom p))%nat -> (0 < gorder (vgeom p))%nat ->
  gxmin (vgeom p) <= x <= gxmax (vgeom p) ->
  derivs p x = Ok (map (fun j => map (fun c => cval (gderiv j (vgeom p)) (cderiv j (vgeom p) c) x) (vcols p)) (seq 0 (gorder (vgeom p)))).
Proof.
  intros Hg Hl Ho Hx. unfold derivs. rewrite vcall_val by auto. cbn [bind].
  pose proof (derivs_from_val p x Hg Hl Hx (gorder (vgeom p) - 1) 0) as HD. rewrite vderiv_0 in HD. rewrite HD. cbn [bind].
  destruct (gorder (vgeom p)) as [|o] eqn:E; [lia|]. replace (S o - 1)%nat with o by lia.
  cbn [seq map]. f_equal. f_equal. apply map_ext. intros c. symmetry. apply gderiv_0.
Qed.

(** * The model built at construction *)
Lemma combine_seq_nth {A} (l : list A) (d : A) : combine (seq 0 (length l)) l = map (fun i => (i, nth i l d)) (seq 0 (length l)).
Proof.
  assert (H : forall s, combine (seq s (length l)) l = map (fun i => (i, nth (i - s) l d)) (seq s (length l))).
  { induction l as [|a l IH]; intros s; [reflexivity|]. cbn [length seq combine map]. rewrite Nat.sub_diag. f_equal.
    rewrite IH. apply map_ext_in. intros i Hi. apply in_seq in Hi. destruct (i - s)%nat as [|k] eqn:E; [lia|].
    replace (i - S s)%nat with k by lia. reflexivity. }
  rewrite H. apply map_ext_in. intros i _. rewrite Nat.sub_0_r. reflexivity.
Qed.
Definition sign_of (q : ftfreq) : R := match q with FEven => 1 | _ => -1 end.
Lemma power_model_val q p : geom_ok (vgeom p) -> (0 < glen (vgeom p))%nat -> (0 < gorder (vgeom p))%nat ->
  gxmin (vgeom p) = -1 -> gxmax (vgeom p) = 1 -> q <> FAny ->
  power_model q p = Ok (map (fun l => map (fun m => power_moment (sign_of q) m l
      (nth l (map (fun c => segF (vgeom p) c (gnseg (vgeom p) - 1) m 1) (vcols p)) 0))
      (seq 0 (gorder (vgeom p)))) (seq 0 (length (vcols p)))).
Proof.
  intros Hg Hl Ho H1 H2 Hq. unfold power_model. rewrite derivs_val by (auto; lra). cbn [bind].
  assert (Es : statsign q = Ok (sign_of q)) by (destruct q; [contradiction|reflexivity|reflexivity]).
  rewrite Es. cbn [bind]. f_equal. apply map_ext. intros l.
  rewrite map_length, seq_length. set (F := fun j => map _ (vcols p)).
  pose proof (combine_seq_nth (map F (seq 0 (gorder (vgeom p)))) []) as HC. rewrite map_length, seq_length in HC.
  rewrite HC, map_map. apply map_ext_in. intros m Hm. apply in_seq in Hm. cbn [fst snd].
  rewrite (nth_indep _ [] (F 0%nat)) by (rewrite map_length, seq_length; lia).
  rewrite map_nth, seq_nth by lia. rewrite Nat.add_0_l. f_equal. f_equal. apply map_ext. intros c.
  unfold cval. change (segment (gderiv m (vgeom p)) 1) with (segment (vgeom p) 1).
  rewrite (segment_spec _ Hg (gnseg (vgeom p) - 1) 1).
  - cbn [glen gderiv cdat cderiv]. rewrite legval_scal. unfold segF.
    change (gxm (gderiv m (vgeom p))) with (gxm (vgeom p)). change (ginv (gderiv m (vgeom p))) with (ginv (vgeom p)).
    change (gnorm (gderiv m (vgeom p))) with (gnorm (vgeom p)). f_equal. f_equal. f_equal. ring.
  - pose proof (g_nseg _ Hg). lia.
  - rewrite <- H2. rewrite xmax_knot. apply (knot_le _ Hg). pose proof (g_nseg _ Hg). lia.
  - right. split; [pose proof (g_nseg _ Hg); lia|auto].
Qed.

(** * Calls *)
Lemma check_freq q ns :
  (Forall (freq_ok q) ns -> check_reduced_matsubara (IntArr ns) (ft_zeta q) = Ok ns) /\
  (~ Forall (freq_ok q) ns -> check_reduced_matsubara (IntArr ns) (ft_zeta q) = Raise ValueError).
Proof.
  assert (Hl : forall k, Z.land k 1 = if Z.even k then 0%Z else 1%Z).
  { intros k. change 1%Z with (Z.ones 1) at 1. rewrite Z.land_ones by lia. change (2 ^ 1)%Z with 2%Z.
    rewrite Zmod_even. destruct (Z.even k); reflexivity. }
  unfold check_reduced_matsubara. cbn [bind].
  destruct q; cbn [ft_zeta].
  - split; [reflexivity|]. intros H. exfalso. apply H. apply Forall_forall. intros; exact I.
  - destruct (forallb (fun k => (Z.land k 1 =? 0)%Z) ns) eqn:E.
    + split; [reflexivity|]. intros H. exfalso. apply H. apply Forall_forall. intros k Hk.
      rewrite forallb_forall in E. specialize (E k Hk). rewrite Hl in E. simpl. destruct (Z.even k); [auto|discriminate].
    + split; [|reflexivity]. intros H. exfalso. apply eq_true_false_abs with (2 := E). apply forallb_forall. intros k Hk.
      rewrite Forall_forall in H. specialize (H k Hk). simpl in H. rewrite Hl, H. reflexivity.
  - destruct (forallb (fun k => (Z.land k 1 =? 1)%Z) ns) eqn:E.
    + split; [reflexivity|]. intros H. exfalso. apply H. apply Forall_forall. intros k Hk.
      rewrite forallb_forall in E. specialize (E k Hk). rewrite Hl in E. simpl. destruct (Z.even k); [discriminate|auto].
    + split; [|reflexivity]. intros H. exfalso. apply eq_true_false_abs with (2 := E). apply forallb_forall. intros k Hk.
      rewrite Forall_forall in H. specialize (H k Hk). simpl in H. rewrite Hl, H. reflexivity.
Qed.

Lemma unl_inner_ok g cols ns : (0 < gorder g)%nat -> (0 < gnseg g)%nat -> glen g = gorder g ->
  unl_inner g cols ns = Ok (map (fun c => map (unl_entry g c) ns) cols).
Proof.
  intros Ho Hs Hl. unfold unl_inner. rewrite Hl.
  assert (Hn : (gorder g * gnseg g <> 0)%nat) by lia.
  destruct (Nat.eqb_spec (gorder g * gnseg g) 0); [contradiction|].
  replace (gorder g * gnseg g * length cols)%nat with (length cols * (gorder g * gnseg g))%nat by ring.
  rewrite Nat.mod_mul, Nat.div_mul by auto. simpl. rewrite Nat.eqb_refl. reflexivity.
Qed.
Lemma unl_inner_raise g cols ns : (0 < gorder g)%nat -> (0 < gnseg g)%nat -> glen g <> gorder g ->
  cols <> [] -> ns <> [] -> unl_inner g cols ns = Raise ValueError.
Proof.
  intros Ho Hs Hl Hc Hn. unfold unl_inner.
  assert (Hz : (gorder g * gnseg g <> 0)%nat) by lia.
  destruct (Nat.eqb_spec (gorder g * gnseg g) 0); [contradiction|]. cbn [orb].
  destruct (Nat.eqb_spec ((glen g * gnseg g * length cols) mod (gorder g * gnseg g)) 0) as [E|E]; [|reflexivity].
  cbn [negb]. apply Nat.div_exact in E; auto.
  set (d := ((glen g * gnseg g * length cols) / (gorder g * gnseg g))%nat) in *.
  destruct (Nat.eqb_spec (d * length ns) (length cols * length ns)) as [E2|E2]; [|reflexivity].
  exfalso. destruct cols as [|c cols]; [congruence|]. destruct ns as [|n' ns]; [congruence|].
  assert (Ed : d = length (c :: cols)) by (apply Nat.mul_cancel_r in E2; [auto|simpl; lia]).
  rewrite Ed in E. apply Hl.
  apply (Nat.mul_cancel_r (glen g) (gorder g) (gnseg g * length (c :: cols))); [simpl; nia|lia].
Qed.

Definition ft_value (f : ft) (l : nat) (c : col) (n : Z) : C :=
  if use_asymp f n then giw (ft_moments f l) n else unl_entry (fgeom f) c n.
Definition ft_rows (f : ft) (ns : list Z) : list (list C) :=
  map (fun lc => map (ft_value f (fst lc) (snd lc)) ns) (combine (seq 0 (length (fcols f))) (fcols f)).
Lemma ft_call_ok f ns : (0 < gorder (fgeom f))%nat -> (0 < gnseg (fgeom f))%nat -> glen (fgeom f) = gorder (fgeom f) ->
  Forall (freq_ok (ffreq f)) ns -> ft_call f ns = Ok (ft_rows f ns).
Proof.
  intros Ho Hs Hl Hf. unfold ft_call. rewrite (proj1 (check_freq _ _) Hf). cbn [bind].
  rewrite unl_inner_ok by auto. cbn [bind]. f_equal. unfold ft_rows. rewrite map_length.
  generalize 0%nat. induction (fcols f) as [|c cols IH]; intros s; [reflexivity|].
  cbn [map length seq combine]. f_equal; [|apply IH]. cbn [fst snd]. clear.
  induction ns; [reflexivity|]. cbn [map combine]. f_equal; auto.
Qed.
Lemma ft_call_freq f ns : ~ Forall (freq_ok (ffreq f)) ns -> ft_call f ns = Raise ValueError.
Proof. intros H. unfold ft_call. rewrite (proj2 (check_freq _ _) H). reflexivity. Qed.

Lemma nth_error_combine_seq {A} (l : list A) i : forall s,
  nth_error (combine (seq s (length l)) l) i = option_map (fun a => ((s + i)%nat, a)) (nth_error l i).
Proof.
  revert i. induction l as [|a l IH]; intros i s; [destruct i; reflexivity|].
  cbn [length seq combine]. destruct i; cbn [nth_error option_map]; [rewrite Nat.add_0_r; auto|].
  rewrite IH. destruct (nth_error l i); simpl; auto. do 2 f_equal. lia.
Qed.
Lemma ft_rows_entry f ns l c j n : nth_error (fcols f) l = Some c -> nth_error ns j = Some n ->
  entry (ft_rows f ns) l j = Some (ft_value f l c n).
Proof.
  intros Hc Hn. unfold entry, ft_rows. rewrite nth_error_map, nth_error_combine_seq, Hc. simpl.
  rewrite nth_error_map, Hn. reflexivity.
Qed.
Lemma ft_init_val p q a mo f : ft_init p q a mo = Ok f ->
  fgeom f = vgeom p /\ fcols f = vcols p /\ ffreq f = q /\ gxmin (vgeom p) = -1 /\ gxmax (vgeom p) = 1 /\
  fasymp f = (match a with AsympAt x => Some x | _ => None end) /\
  (fmodel f = match a with NoAsymp => None | _ =>
      match mo with Some m => Some m | None => match power_model q p with Ok m => Some m | Raise _ => None end end end) /\
  (a <> NoAsymp -> mo = None -> is_ok (power_model q p)).
Proof.
  unfold ft_init. unfold Reqb. destruct (Req_EM_T (gxmin (vgeom p)) (-1)) as [E1|]; [|discriminate].
  destruct (Req_EM_T (gxmax (vgeom p)) 1) as [E2|]; [|discriminate]. cbn [negb orb].
  destruct a; [| |].
  - intros H; injection H as <-; cbn; repeat split; auto; congruence.
  - destruct mo as [m|]; cbn [bind].
    + intros H; injection H as <-; cbn; repeat split; auto; congruence.
    + destruct (power_model q p) as [m|e] eqn:E; [|discriminate].
      intros H; injection H as <-; cbn; repeat split; auto; intros; eexists; eauto.
  - destruct mo as [m|]; cbn [bind].
    + intros H; injection H as <-; cbn; repeat split; auto; congruence.
    + destruct (power_model q p) as [m|e] eqn:E; [|discriminate].
      intros H; injection H as <-; cbn; repeat split; auto; intros; eexists; eauto.
Qed.
