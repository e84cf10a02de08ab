(** Lemmas about truncation and partial results of a singular value expansion. *)
From Coq Require Import Reals ZArith Arith Bool Lra Lia String.
From Coq Require Import List Sorting.Sorted Permutation.
From Verif.Model Require Import Base Util Num Poly SVE.
From Verif.Spec Require Import SSVE.
From Verif.Proofs Require Import BaseFacts UtilFacts.
Import ListNotations.
Open Scope R_scope.
Notation length := List.length.

Lemma filter_perm {A} (f : A -> bool) l m : Permutation l m -> Permutation (filter f l) (filter f m).
Proof.
  induction 1; simpl; auto.
  - destruct (f x); auto.
  - destruct (f x), (f y); auto. apply perm_swap.
  - eapply perm_trans; eauto.
Qed.

Lemma filter_split {A} (f : A -> bool) l :
  (length (filter f l) + length (filter (fun x => negb (f x)) l) = length l)%nat.
Proof. induction l as [|a l IH]; simpl; auto. destruct (f a); simpl; lia. Qed.

Lemma filter_le {A} (f : A -> bool) l : (length (filter f l) <= length l)%nat.
Proof. pose proof (filter_split f l). lia. Qed.

Lemma filter_ext_len {A} (f g : A -> bool) l : (forall x, In x l -> f x = g x) ->
  length (filter f l) = length (filter g l).
Proof. intros H. f_equal. apply filter_ext_in. auto. Qed.

(** In an ascending list, entry i is below x iff more than i entries are. *)
Lemma sorted_nth_lt t x i : StronglySorted Rle t -> (i < length t)%nat ->
  (nth i t 0 < x <-> (i < length (filter (fun y => Rltb y x) t))%nat).
Proof.
  revert i. induction t as [|a t IH]; intros i Hs Hi; [simpl in Hi; lia|].
  inversion Hs as [|? ? Hs' Ha]; subst.
  destruct (Rlt_dec a x) as [Hax|Hax].
  - simpl. rewrite (proj2 (Rltb_true a x) Hax). simpl. destruct i as [|i].
    + split; [lia|auto].
    + rewrite (IH i); [lia|auto|simpl in Hi; lia].
  - assert (E : filter (fun y => Rltb y x) (a :: t) = []).
    { simpl. rewrite (proj2 (Rltb_false a x)) by lra.
      clear IH Hs Hi. induction t as [|b t IHt]; simpl; auto.
      inversion Ha; subst. inversion Hs'; subst. rewrite (proj2 (Rltb_false b x)) by lra. auto. }
    rewrite E. simpl. split; [|lia]. intros H. exfalso. destruct i as [|i]; [lra|].
    rewrite Forall_forall in Ha. assert (a <= nth i t 0); [|lra].
    apply Ha. apply nth_In. simpl in Hi. lia.
Qed.

Lemma rsort_length l : length (rsort l) = length l.
Proof. apply Permutation_length, Permutation_sym, rsort_perm. Qed.

(** x exceeds the entry n-z-1 of the sorted values iff at most z values are >= x. *)
Lemma cut_iff l x (z : Z) : (0 <= z < Z.of_nat (length l))%Z ->
  (nth (Z.to_nat (Z.of_nat (length l) - z - 1)) (rsort l) 0 < x <->
   (Z.of_nat (length (filter (fun y => Rleb x y) l)) <= z)%Z).
Proof.
  intros Hz. rewrite sorted_nth_lt; [|apply rsort_sorted|rewrite rsort_length; lia].
  rewrite (Permutation_length (filter_perm _ _ _ (Permutation_sym (rsort_perm l)))).
  pose proof (filter_split (fun y => Rltb y x) l).
  rewrite (filter_ext_len (fun y => negb (Rltb y x)) (fun y => Rleb x y)) in H.
  - lia.
  - intros y _. unfold Rltb, Rleb. destruct (Rlt_dec y x), (Rle_dec x y); auto; lra.
Qed.

Lemma last_nth {A} (l : list A) d : last l d = nth (length l - 1) l d.
Proof.
  induction l as [|a [|b l] IH]; auto. change (last (a :: b :: l) d) with (last (b :: l) d).
  rewrite IH. simpl. replace (length l - 0)%nat with (length l) by lia. destruct (length l); auto.
Qed.

Lemma sorted_last_max t : StronglySorted Rle t -> forall y, In y t -> y <= last t 0.
Proof.
  induction 1 as [|a t Hs IH Ha]; intros y Hy; [easy|].
  destruct t as [|b t]; [destruct Hy as [<-|[]]; simpl; lra|].
  change (last (a :: b :: t) 0) with (last (b :: t) 0).
  destruct Hy as [<-|Hy]; auto. rewrite Forall_forall in Ha.
  apply Rle_trans with b; [apply Ha; simpl; auto|]. apply IH. simpl; auto.
Qed.

Lemma rsort_last l : l <> [] ->
  In (last (rsort l) 0) l /\ (forall y, In y l -> y <= last (rsort l) 0).
Proof.
  intros H. split.
  - apply (Permutation_in _ (Permutation_sym (rsort_perm l))).
    assert (rsort l <> []).
    { intros E. apply H. apply length_zero_iff_nil. rewrite <- rsort_length, E. auto. }
    rewrite last_nth. apply nth_In. rewrite rsort_length. destruct l; [easy|simpl; lia].
  - intros y Hy. apply sorted_last_max; [apply rsort_sorted|].
    apply (Permutation_in _ (rsort_perm l)). auto.
Qed.

Lemma sig_max vals r x : vals <> [] ->
  (forall M, In M vals -> (forall y, In y vals -> y <= M) -> r * M < x) <-> r * last (rsort vals) 0 < x.
Proof.
  intros H. destruct (rsort_last vals H) as [H1 H2]. split.
  - intros Hx. apply Hx; auto.
  - intros Hx M HM Hmax. assert (M = last (rsort vals) 0) by (apply Rle_antisym; auto). subst. auto.
Qed.

Lemma all_values_concat {A B} (blocks : list (block A B)) :
  all_values blocks = concat (map bvals blocks).
Proof. unfold all_values. rewrite flat_map_concat_map. auto. Qed.

(** The cutoff singles out the significant values. *)
Lemma cutoff_significant vals r lmax c x : vals <> [] -> check_lmax lmax = Ok tt ->
  cutoff_of r lmax vals = Ok c -> In x vals -> (c < x <-> significant vals r lmax x).
Proof.
  intros Hv Hl Hc Hx. unfold significant. rewrite sig_max by auto. unfold cutoff_of in Hc.
  destruct lmax as [[z|f]|].
  - simpl in Hl. destruct (z <? 0)%Z eqn:E0; [easy|]. apply Z.ltb_ge in E0.
    destruct (z <? Z.of_nat (length vals))%Z eqn:E1.
    + apply Z.ltb_lt in E1. injection Hc as <-. simpl within. rewrite <- cut_iff by lia.
      split.
      * intros H. pose proof (Rmax_l (r * last (rsort vals) 0) (nth (Z.to_nat (Z.of_nat (length vals) - z - 1)) (rsort vals) 0)).
        pose proof (Rmax_r (r * last (rsort vals) 0) (nth (Z.to_nat (Z.of_nat (length vals) - z - 1)) (rsort vals) 0)). lra.
      * intros [H1 H2]. apply Rmax_lub_lt; auto.
    + apply Z.ltb_ge in E1. injection Hc as <-. simpl within. split; [|tauto]. intros H; split; auto.
      apply Z.le_trans with (2 := E1). apply inj_le, filter_le.
  - destruct f as [f| | |]; try easy.
    destruct (negb (xleb (Fin (IZR (Z.of_nat (length vals)))) (Fin f))) eqn:E; [easy|].
    injection Hc as <-. simpl within. split; [|tauto]. intros H; split; auto.
    apply negb_false_iff in E. simpl in E. apply Rleb_true in E. rewrite <- INR_IZR_INZ in E.
    apply Rle_trans with (2 := E). apply le_INR, filter_le.
  - injection Hc as <-. simpl. tauto.
Qed.

Lemma filter_incl_len {A} (f g : A -> bool) l : (forall x, In x l -> f x = true -> g x = true) ->
  (length (filter f l) <= length (filter g l))%nat.
Proof.
  intros H. induction l as [|a l IH]; simpl; auto.
  assert (IH' := IH (fun x Hx => H x (or_intror Hx))).
  destruct (f a) eqn:E; [rewrite (H a (or_introl eq_refl) E); simpl; lia|].
  destruct (g a); simpl; lia.
Qed.

(** At most lmax values exceed the cutoff. *)
Lemma cutoff_limit vals r lmax c : vals <> [] -> check_lmax lmax = Ok tt ->
  cutoff_of r lmax vals = Ok c -> within (count_above c vals) lmax.
Proof.
  intros Hv Hl Hc. unfold count_above. destruct (filter (fun x => Rltb c x) vals) as [|x0 l0] eqn:E.
  - destruct lmax as [[z|[f| | |]]|]; simpl in *; auto; try easy.
    + destruct (z <? 0)%Z eqn:E0; [easy|]. apply Z.ltb_ge in E0. lia.
    + destruct (Rltb f 0 || negb (Reqb (IZR (Rtrunc f)) f)) eqn:E0; [easy|].
      apply orb_false_iff in E0. destruct E0 as [E0 _]. apply Rltb_false in E0. auto.
  - (* the least value above the cutoff *)
    set (k := filter (fun x => Rltb c x) vals) in *.
    assert (Hk : forall y, In y k -> In y vals /\ c < y).
    { intros y Hy. apply filter_In in Hy. rewrite Rltb_true in Hy. auto. }
    assert (Hm : In (nth 0 (rsort k) 0) k /\ forall y, In y k -> nth 0 (rsort k) 0 <= y).
    { pose proof (rsort_perm k) as P. pose proof (rsort_sorted k) as S.
      destruct (rsort k) as [|m t] eqn:Ek.
      - apply Permutation_sym, Permutation_nil in P. rewrite P in E. easy.
      - simpl. split; [apply (Permutation_in _ (Permutation_sym P)); simpl; auto|].
        intros y Hy. apply (Permutation_in _ P) in Hy. destruct Hy as [<-|Hy]; [lra|].
        inversion S; subst. rewrite Forall_forall in H2. auto. }
    destruct Hm as [Hm1 Hm2]. set (m := nth 0 (rsort k) 0) in *.
    destruct (Hk m Hm1) as [Hmv Hmc].
    assert (W : within (length (filter (fun y => Rleb m y) vals)) lmax)
      by (apply (proj1 (cutoff_significant vals r lmax c m Hv Hl Hc Hmv)); auto).
    assert (Le : (length k <= length (filter (fun y => Rleb m y) vals))%nat).
    { unfold k. apply filter_incl_len. intros y Hy Hcy. apply Rleb_true. apply Hm2.
      unfold k. apply filter_In. auto. }
    rewrite <- E. clearbody k. clear - W Le.
    destruct lmax as [[z|[f| | |]]|]; simpl in *; auto; try lia.
    apply le_INR in Le. lra.
Qed.

Lemma count_concat c (ls : list (list R)) :
  count_above c (concat ls) = fold_right plus 0%nat (map (count_above c) ls).
Proof.
  induction ls as [|l ls IH]; auto. simpl. rewrite <- IH. unfold count_above.
  rewrite filter_app, app_length. auto.
Qed.

Lemma count_le c l : (count_above c l <= length l)%nat.
Proof. apply filter_le. Qed.

Lemma cut_total {A B} c (blocks : list (block A B)) :
  length (all_values (map (cut_block c) blocks)) = count_above c (all_values blocks).
Proof.
  rewrite !all_values_concat, count_concat. induction blocks as [|b bs IH]; auto.
  simpl. rewrite app_length, IH. f_equal. unfold cut_block, bvals at 1. cbn [fst snd].
  apply firstn_length_le, count_le.
Qed.

Lemma filter_firstn_sorted (f : R -> bool) s : nonincreasing s ->
  (forall a b, In a s -> In b s -> b <= a -> f b = true -> f a = true) ->
  firstn (length (filter f s)) s = filter f s.
Proof.
  unfold nonincreasing. induction 1 as [|a s Hs IH Ha]; intros Hf; auto. simpl.
  destruct (f a) eqn:E; simpl.
  - f_equal. apply IH. intros; apply (Hf a0 b); simpl; auto.
  - assert (Z : filter f s = []).
    { rewrite Forall_forall in Ha. clear IH Hs. induction s as [|b s IHs]; auto. simpl.
      destruct (f b) eqn:Eb.
      - rewrite (Hf a b) in E; simpl; auto; try easy. apply Ha; simpl; auto.
      - apply IHs; [intros; apply Ha; simpl; auto|].
        intros x y Hx Hy. apply Hf; simpl in *; tauto. }
    rewrite Z. auto.
Qed.

Lemma sorted_count_index c s j x : nonincreasing s -> nth_error s j = Some x ->
  ((j < count_above c s)%nat <-> c < x).
Proof.
  intros Hs Hj. unfold count_above. revert j Hj.
  induction Hs as [|a s Hs IH Ha]; intros j Hj; [destruct j; easy|].
  simpl. destruct (Rltb c a) eqn:E.
  - apply Rltb_true in E. destruct j as [|j]; simpl in *.
    + injection Hj as <-. split; [auto|lia].
    + rewrite <- (IH j Hj). lia.
  - apply Rltb_false in E. rewrite Forall_forall in Ha.
    assert (Z : filter (fun x => Rltb c x) s = []).
    { clear IH Hj Hs. induction s as [|b s IHs]; auto. simpl.
      rewrite (proj2 (Rltb_false c b)).
      - apply IHs. intros; apply Ha; simpl; auto.
      - apply Rle_trans with a; [apply Ha; simpl; auto|auto]. }
    rewrite Z. simpl. split; [lia|]. intros Hx. exfalso.
    destruct j as [|j]; simpl in Hj; [injection Hj as <-; lra|].
    apply nth_error_In in Hj. pose proof (Ha _ Hj). lra.
Qed.

(** Shape of a successful truncation. *)
Lemma truncate_ok {A B} (blocks : list (block A B)) rtol lmax out :
  truncate blocks rtol lmax = Ok out ->
  exists r c, valid_rtol rtol r /\ check_lmax lmax = Ok tt /\ all_values blocks <> [] /\
    cutoff_of r lmax (all_values blocks) = Ok c /\ out = map (cut_block c) blocks.
Proof.
  unfold truncate. destruct (check_lmax lmax) as [[]|e] eqn:El; [|easy]. cbn [bind].
  destruct rtol as [r| | |]; try easy. unfold check_rtol.
  destruct (Rleb 0 r && Rleb r 1) eqn:Er; [|easy]. cbn [bind].
  apply andb_true_iff in Er. rewrite !Rleb_true in Er.
  destruct blocks as [|b bs]; [easy|]. rewrite all_values_concat.
  destruct (concat (map bvals (b :: bs))) as [|x l] eqn:Ec; [easy|].
  destruct (cutoff_of r lmax (x :: l)) as [c|] eqn:E; [|easy]. cbn [bind]. intros H. injection H as <-.
  exists r, c. repeat split; auto; try lra. easy.
Qed.

Lemma truncate_prefix {A B} (blocks : list (block A B)) rtol lmax out :
  truncate blocks rtol lmax = Ok out ->
  Forall2 (fun b b' => exists k, (k <= length (snd (fst b)))%nat /\ prefix_of k b b') blocks out /\
  within (length (all_values out)) lmax.
Proof.
  intros H. destruct (truncate_ok _ _ _ _ H) as (r & c & Hr & Hl & Hv & Hc & ->). split.
  - clear. induction blocks as [|b bs IH]; simpl; constructor; auto.
    exists (count_above c (bvals b)). split; [apply count_le|reflexivity].
  - rewrite cut_total. eapply cutoff_limit; eauto.
Qed.

Lemma truncate_sorted {A B} (blocks : list (block A B)) r lmax out :
  truncate blocks (Fin r) lmax = Ok out -> Forall (fun b => nonincreasing (snd (fst b))) blocks ->
  forall i b b' j x, nth_error blocks i = Some b -> nth_error out i = Some b' ->
    nth_error (snd (fst b)) j = Some x ->
    (nth_error (snd (fst b')) j = Some x \/ nth_error (snd (fst b')) j = None) /\
    (nth_error (snd (fst b')) j = Some x <-> significant (all_values blocks) r lmax x).
Proof.
  intros H Hs i b b' j x Hb Hb' Hj.
  destruct (truncate_ok _ _ _ _ H) as (r' & c & [Hr _] & Hl & Hv & Hc & ->). injection Hr as <-.
  rewrite nth_error_map, Hb in Hb'. injection Hb' as <-. unfold cut_block. cbn [fst snd]. fold (bvals b) in *.
  assert (Hx : In x (all_values blocks)).
  { unfold all_values. apply in_flat_map. exists b. split; [eapply nth_error_In; eauto|eapply nth_error_In; eauto]. }
  rewrite <- (cutoff_significant _ _ _ _ _ Hv Hl Hc Hx).
  rewrite Forall_forall in Hs. assert (Hsb : nonincreasing (bvals b)) by (apply Hs; eapply nth_error_In; eauto).
  rewrite <- (sorted_count_index c _ _ _ Hsb Hj).
  set (k := count_above c (bvals b)).
  destruct (lt_dec j k) as [Hlt|Hge].
  - assert (E : nth_error (firstn k (bvals b)) j = Some x).
    { rewrite <- Hj. rewrite <- (firstn_skipn k (bvals b)) at 2. rewrite nth_error_app1; auto.
      rewrite firstn_length_le; auto. apply count_le. }
    rewrite E. tauto.
  - assert (E : nth_error (firstn k (bvals b)) j = None).
    { apply nth_error_None. rewrite firstn_length. lia. }
    rewrite E. split; [auto|]. split; [easy|lia].
Qed.

Lemma Rtrunc_iff x : Reqb (IZR (Rtrunc x)) x = true <-> exists z, x = IZR z.
Proof.
  rewrite Reqb_true. split; [intros H; eauto|]. intros [z ->]. rewrite Rtrunc_IZR. auto.
Qed.

Lemma check_lmax_invalid lmax : invalid_lmax lmax -> check_lmax lmax = Raise ValueError.
Proof.
  destruct lmax as [[z|[x| | |]]|]; simpl; try easy.
  - intros H. rewrite (proj2 (Z.ltb_lt _ _) H). auto.
  - intros [H|H].
    + rewrite (proj2 (Rltb_true _ _) H). auto.
    + destruct (Reqb (IZR (Rtrunc x)) x) eqn:E; [apply Rtrunc_iff in E; easy|]. rewrite orb_true_r. auto.
Qed.

Lemma check_lmax_valid lmax : ~ invalid_lmax lmax -> lmax <> Some (PyFloat PInf) -> check_lmax lmax = Ok tt.
Proof.
  destruct lmax as [[z|[x| | |]]|]; simpl; try tauto.
  - intros H. rewrite (proj2 (Z.ltb_ge z 0)) by lia. auto.
  - intros H _. rewrite (proj2 (Rltb_false x 0)) by (destruct (Rle_dec 0 x); auto; exfalso; apply H; lra).
    simpl. destruct (Reqb (IZR (Rtrunc x)) x) eqn:E; auto.
    exfalso. apply H. right. intros Hz. apply Rtrunc_iff in Hz. congruence.
Qed.

Lemma check_rtol_iff rtol r : check_rtol rtol = Ok r <-> valid_rtol rtol r.
Proof.
  unfold valid_rtol. destruct rtol as [x| | |]; simpl; try (split; [easy|intros [? _]; easy]).
  destruct (Rleb 0 x && Rleb x 1) eqn:E.
  - apply andb_true_iff in E. rewrite !Rleb_true in E. split; [intros H; injection H as <-; auto|].
    intros [H _]. injection H as ->. auto.
  - split; [easy|]. intros [H1 H2]. injection H1 as ->.
    rewrite (proj2 (Rleb_true _ _)), (proj2 (Rleb_true _ _)) in E by lra. easy.
Qed.

Lemma check_rtol_raise rtol : (forall r, ~ valid_rtol rtol r) -> check_rtol rtol = Raise ValueError.
Proof.
  intros H. destruct (check_rtol rtol) as [r|e] eqn:E.
  - apply check_rtol_iff in E. exfalso. eapply H; eauto.
  - destruct rtol as [x| | |]; simpl in E; try congruence. destruct (Rleb 0 x && Rleb x 1); congruence.
Qed.

(** All outcomes. *)
Lemma truncate_outcomes {A B} (blocks : list (block A B)) rtol lmax :
  (invalid_lmax lmax -> truncate blocks rtol lmax = Raise ValueError) /\
  (lmax <> Some (PyFloat PInf) -> (forall r, ~ valid_rtol rtol r) -> truncate blocks rtol lmax = Raise ValueError) /\
  (lmax = Some (PyFloat PInf) -> truncate blocks rtol lmax = Raise OverflowError) /\
  (forall r z, lmax = None \/ (lmax = Some (PyInt z) /\ 0 <= z)%Z -> valid_rtol rtol r ->
     all_values blocks <> [] -> exists out, truncate blocks rtol lmax = Ok out) /\
  (forall r z, lmax = Some (PyFloat (Fin (IZR z))) -> (0 <= z < Z.of_nat (length (all_values blocks)))%Z ->
     valid_rtol rtol r -> truncate blocks rtol lmax = Raise IndexError).
Proof.
  split; [|split; [|split; [|split]]].
  - intros H. unfold truncate. rewrite check_lmax_invalid by auto. auto.
  - intros H1 H2. unfold truncate. destruct (check_lmax lmax) as [[]|e] eqn:E.
    + cbn [bind]. rewrite check_rtol_raise by auto. auto.
    + cbn [bind]. destruct lmax as [[z|[x| | |]]|]; simpl in E; try congruence;
        repeat match type of E with context [if ?b then _ else _] => destruct b end; congruence.
  - intros ->. auto.
  - intros r z Hl Hr Hv. unfold truncate.
    assert (E : check_lmax lmax = Ok tt).
    { destruct Hl as [->|[-> Hz]]; auto. simpl. rewrite (proj2 (Z.ltb_ge z 0)) by lia. auto. }
    rewrite E, (proj2 (check_rtol_iff _ _) Hr). cbn [bind]. rewrite all_values_concat in Hv.
    destruct blocks as [|b bs]; [easy|].
    destruct (concat (map bvals (b :: bs))) as [|x l] eqn:Ec; [easy|].
    destruct Hl as [->|[-> Hz]]; simpl.
    + eexists; reflexivity.
    + destruct (z <? Z.pos (Pos.of_succ_nat (length l)))%Z; cbn [bind]; eexists; reflexivity.
  - intros r z -> Hz Hr. unfold truncate.
    assert (E : check_lmax (Some (PyFloat (Fin (IZR z)))) = Ok tt).
    { simpl. rewrite (proj2 (Rltb_false _ _)) by (apply IZR_le; lia).
      rewrite (proj2 (Rtrunc_iff _)) by eauto. auto. }
    rewrite E, (proj2 (check_rtol_iff _ _) Hr). cbn [bind]. rewrite all_values_concat in Hz.
    destruct blocks as [|b bs]; [simpl in Hz; lia|].
    destruct (concat (map bvals (b :: bs))) as [|x l] eqn:Ec; [simpl in Hz; lia|].
    unfold cutoff_of. unfold xleb. rewrite (proj2 (Rleb_false _ _)); auto. apply IZR_lt. lia.
Qed.
