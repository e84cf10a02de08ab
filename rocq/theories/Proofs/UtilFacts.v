From Coq Require Import List ZArith Bool Reals Lia Lra.
From Verif.Model Require Import Base Util Ravel.
From Verif.Spec Require Import SUtil.
From Verif.Proofs Require Import BaseFacts.
Import ListNotations.

Lemma Int_part_IZR z : Int_part (IZR z) = z.
Proof.
  destruct (base_Int_part (IZR z)) as [H1 H2].
  apply le_IZR in H1.
  rewrite <- minus_IZR in H2. change (-1)%R with (IZR (-1)) in H2.
  apply Rgt_lt, lt_IZR in H2. lia.
Qed.

Lemma Rtrunc_IZR z : Rtrunc (IZR z) = z.
Proof.
  unfold Rtrunc. destruct Rle_dec.
  - apply Int_part_IZR.
  - rewrite <- opp_IZR, Int_part_IZR. lia.
Qed.

Lemma land1_mod z : Z.land z 1 = (z mod 2)%Z.
Proof. change 1%Z with (Z.ones 1). rewrite Z.land_ones by lia. reflexivity. Qed.

Lemma parity_check zeta z :
  parity_ok (Some zeta) z <-> Z.land z 1 = zeta /\ (zeta = 0 \/ zeta = 1)%Z.
Proof.
  rewrite land1_mod. split.
  - intros H. destruct zeta as [|[| |]|]; simpl in H; try tauto.
    + apply Zeven_equiv, Zeven_bool_iff in H. rewrite Zmod_even, H. auto.
    + apply Zodd_equiv, Zodd_bool_iff in H. rewrite Zmod_odd, H. auto.
  - intros [H [->| ->]]; simpl.
    + apply Zeven_equiv, Zeven_bool_iff. rewrite Zmod_even in H.
      destruct Z.even; auto; discriminate.
    + apply Zodd_equiv, Zodd_bool_iff. rewrite Zmod_odd in H.
      destruct Z.odd; auto; discriminate.
Qed.

Lemma parity_forall zeta l (Hz : (zeta = 0 \/ zeta = 1)%Z) :
  forallb (fun k => Z.eqb (Z.land k 1) zeta) l = true <-> Forall (parity_ok (Some zeta)) l.
Proof.
  rewrite forallb_forall, Forall_forall.
  split; intros H x Hx; specialize (H x Hx).
  - apply parity_check. rewrite Z.eqb_eq in H; auto.
  - apply parity_check in H. apply Z.eqb_eq; tauto.
Qed.

Lemma astype_is_int x : xeqb (Fin (IZR (astype_int x))) x = true <-> is_int64 x (astype_int x).
Proof.
  unfold is_int64. destruct x as [r| | |]; simpl; try (split; [discriminate|intros [[=] _]]).
  rewrite Reqb_true.
  assert (Hr : (- 2 ^ 63 <= astype_int (Fin r) < 2 ^ 63)%Z).
  { unfold astype_int, int64_min, int64_max. destruct (_ && _)%bool eqn:E; lia. }
  simpl in Hr.
  split.
  - intros H. split; [congruence|exact Hr].
  - intros [[= H] _]. congruence.
Qed.

Lemma astype_of_int x z : is_int64 x z -> astype_int x = z.
Proof.
  intros [-> Hz]. unfold astype_int. rewrite Rtrunc_IZR.
  unfold int64_min, int64_max. destruct (_ && _)%bool eqn:E; lia.
Qed.

Lemma float_branch l :
  forallb (fun p => xeqb (Fin (IZR (fst p))) (snd p)) (combine (map astype_int l) l) = true
  <-> Forall2 is_int64 l (map astype_int l).
Proof.
  induction l as [|x l IH]; cbn [map combine forallb fst snd].
  - split; auto.
  - rewrite andb_true_iff, IH, astype_is_int.
    split; [intros [H1 H2]|intros H; inversion H]; auto.
Qed.

Lemma float_unique l out : Forall2 is_int64 l out -> out = map astype_int l.
Proof.
  induction 1; cbn [map]; auto. f_equal; auto. symmetry; apply astype_of_int; auto.
Qed.

Lemma ints_ok l : Forall (fun z => - 2 ^ 63 <= z < 2 ^ 63)%Z l ->
  Forall2 is_int64 (map (fun z => Fin (IZR z)) l) l.
Proof. induction 1; cbn [map]; constructor; auto. split; auto. Qed.

Lemma ints_unique l out : Forall2 is_int64 (map (fun z => Fin (IZR z)) l) out -> out = l.
Proof.
  revert out; induction l as [|z l IH]; intros out H; inversion H as [|? ? ? ? [H1 _]]; subst; auto.
  f_equal; auto. injection H1 as H1. apply eq_IZR in H1; auto.
Qed.

Lemma check_reduced_ok n zeta out :
  int_array_ok n -> (zeta = None \/ zeta = Some 0 \/ zeta = Some 1)%Z ->
  (check_reduced_matsubara n zeta = Ok out <->
   Forall2 is_int64 (values_of n) out /\ Forall (parity_ok zeta) out).
Proof.
  intros Hn Hz.
  assert (Hpar : forall ints,
    (match zeta with
     | None => Ok ints
     | Some z => if forallb (fun k => Z.eqb (Z.land k 1) z) ints then Ok ints else Raise ValueError
     end = Ok out) <-> ints = out /\ Forall (parity_ok zeta) out).
  { intros ints. destruct zeta as [z|].
    - assert (Hz' : (z = 0 \/ z = 1)%Z) by (destruct Hz as [|[[=]|[=]]]; [discriminate|lia|lia]).
      destruct (forallb _ ints) eqn:E.
      + split; [intros [= ->]|intros [-> _]]; auto.
        split; auto. apply parity_forall; auto.
      + split; [discriminate|intros [-> H]].
        apply parity_forall in H; auto. congruence.
    - split; [intros [= ->]; split; auto|intros [-> _]; auto].
      apply Forall_forall; simpl; auto. }
  unfold check_reduced_matsubara. destruct n as [l|l]; cbn [bind values_of].
  - rewrite Hpar. split; intros [H1 H2]; split; auto.
    + subst out. apply ints_ok; auto.
    + apply ints_unique in H1; auto.
  - destruct (forallb _ (combine _ _)) eqn:E; cbn [bind].
    + apply float_branch in E. rewrite Hpar. split; intros [H1 H2]; split; auto.
      * subst out; auto.
      * apply float_unique in H1; auto.
    + split; [discriminate|]. intros [H1 H2].
      pose proof (float_unique _ _ H1); subst out.
      apply float_branch in H1. congruence.
Qed.

Lemma check_reduced_raise n zeta :
  (exists out, check_reduced_matsubara n zeta = Ok out) \/
  check_reduced_matsubara n zeta = Raise ValueError.
Proof.
  unfold check_reduced_matsubara.
  destruct n as [l|l]; cbn [bind]; [|destruct (forallb _ (combine _ _)); cbn [bind]; auto];
  (destruct zeta; [destruct forallb; auto; left; eauto|left; eauto]).
Qed.

Lemma check_range_spec x xmin xmax :
  (Forall (inside xmin xmax) x -> check_range x xmin xmax = Ok x) /\
  (~ Forall (inside xmin xmax) x -> check_range x xmin xmax = Raise ValueError).
Proof.
  assert (Hone : forall a, inside xmin xmax a <->
             xgeb a (Fin xmin) = true /\ xleb a (Fin xmax) = true).
  { intros [r| | |]; unfold inside, xgeb, xleb; simpl; rewrite ?Rleb_true.
    - split; [intros (q & [= <-] & H); lra|intros H; exists r; split; auto].
    - split; [intros (q & [=] & _)|intros [_ [=]]].
    - split; [intros (q & [=] & _)|intros [[=] _]].
    - split; [intros (q & [=] & _)|intros [[=] _]]. }
  unfold check_range.
  assert (HF : Forall (inside xmin xmax) x <->
    forallb (fun a => xgeb a (Fin xmin)) x = true /\ forallb (fun a => xleb a (Fin xmax)) x = true).
  { rewrite !forallb_forall, Forall_forall. split.
    - intros H; split; intros a Ha; apply H in Ha; apply Hone in Ha; tauto.
    - intros [H1 H2] a Ha; apply Hone; auto. }
  rewrite HF.
  destruct (forallb (fun a => xgeb a (Fin xmin)) x), (forallb (fun a => xleb a (Fin xmax)) x); simpl;
    split; intros H; auto; try (destruct H; discriminate); try tauto.
Qed.

Lemma check_svd_spec u s v ms m k n :
  check_svd_result u s v ms = Ok (m, k, n) <->
  u = [m; k] /\ s = [k] /\ v = [k; n] /\ (ms = None \/ ms = Some (m, n)).
Proof.
  unfold check_svd_result.
  destruct u as [|m_u [|k_u [|]]]; try (split; [discriminate|intros (H & _); discriminate]).
  destruct s as [|k_s [|]]; try (split; [discriminate|intros (_ & H & _); discriminate]).
  destruct v as [|k_v [|n_v [|]]]; try (split; [discriminate|intros (_ & _ & H & _); discriminate]).
  destruct (Nat.eqb_spec k_u k_s) as [->|]; simpl.
  2: { split; [discriminate|intros ([= <- <-] & [= ->] & _); congruence]. }
  destruct (Nat.eqb_spec k_s k_v) as [->|]; simpl.
  2: { split; [discriminate|intros (_ & [= ->] & [= -> <-] & _); congruence]. }
  destruct ms as [[m' n']|].
  - destruct (Nat.eqb_spec m_u m') as [->|]; simpl.
    2: { split; [discriminate|intros ([= <- <-] & _ & [= <-] & [?|[= -> ->]]); congruence]. }
    destruct (Nat.eqb_spec n_v n') as [->|]; simpl.
    + split; [intros [= -> -> ->]; auto 10|intros ([= <- <-] & _ & [= <-] & _); auto].
    + split; [discriminate|intros ([= <- <-] & _ & [= <-] & [?|[= ->]]); congruence].
  - split; [intros [= -> -> ->]; auto 10|intros ([= <- <-] & _ & [= <-] & _); auto].
Qed.

Lemma check_svd_raise u s v ms :
  (exists r, check_svd_result u s v ms = Ok r) \/ check_svd_result u s v ms = Raise ValueError.
Proof.
  unfold check_svd_result.
  repeat match goal with
         | |- context [match ?x with _ => _ end] => destruct x; auto
         | |- context [if ?x then _ else _] => destruct x; auto
         end; left; eauto.
Qed.

(** Decorator *)
Section Dec.
Context {Obj Arg Val : Type} (inner : Obj -> Arg -> Val).
Notation run := (run inner).

Lemma run_app st h1 h2 :
  run st (h1 ++ h2) =
  (fst (run st h1) ++ fst (run (snd (run st h1)) h2), snd (run (snd (run st h1)) h2)).
Proof.
  revert st; induction h1 as [|[t o|t x] h1 IH]; intros st; simpl.
  - destruct (run st h2); reflexivity.
  - apply IH.
  - rewrite IH. destruct (run st h1); reflexivity.
Qed.

Lemma run_calls st h : length (fst (run st h)) = calls h.
Proof.
  unfold calls. revert st; induction h as [|[t o|t x] h IH]; intros st; simpl; auto.
  rewrite <- (IH st). destruct (run st h); reflexivity.
Qed.

Lemma run_state st h :
  snd (run st h) = fold_left (fun acc e => match e with Access _ o => o | Call _ _ => acc end) h st.
Proof.
  revert st; induction h as [|[t o|t x] h IH]; intros st; simpl; auto.
  specialize (IH st). destruct (run st h) as [rs st']; exact IH.
Qed.

Lemma call_result h1 t x h2 :
  nth_error (fst (run d_init (h1 ++ Call t x :: h2))) (calls h1) =
  Some (match last_access h1 with Some o => Ok (inner o x) | None => Raise TypeError end).
Proof.
  rewrite run_app. cbn [fst].
  rewrite nth_error_app2 by (rewrite run_calls; auto).
  rewrite run_calls, Nat.sub_diag. simpl.
  destruct (run (snd (run d_init h1)) h2) as [rs st'] eqn:E. simpl.
  rewrite run_state. unfold d_call, last_access, d_init.
  reflexivity.
Qed.

Lemma last_access_snoc (h : list (event Obj Arg)) t o : last_access (h ++ [Access t o]) = o.
Proof. unfold last_access. rewrite fold_left_app. reflexivity. Qed.

Lemma access_then_call h1 t o t' x h2 :
  nth_error (fst (run d_init (h1 ++ Access t (Some o) :: Call t' x :: h2))) (calls h1) =
  Some (Ok (inner o x)).
Proof.
  replace (h1 ++ Access t (Some o) :: Call t' x :: h2)
    with ((h1 ++ [Access t (Some o)]) ++ Call t' x :: h2) by (rewrite <- app_assoc; auto).
  replace (calls h1) with (calls (h1 ++ [Access t (Some o)])).
  2: { unfold calls. rewrite filter_app, app_length. simpl. lia. }
  rewrite call_result, last_access_snoc. reflexivity.
Qed.

Lemma run_evaluations t l st :
  fst (run st (evaluations t l)) = map (fun p => Ok (inner (fst p) (snd p))) l.
Proof.
  revert st; induction l as [|[o x] l IH]; intros st; auto.
  unfold evaluations in *; simpl. unfold d_get at 1. specialize (IH (Some o)).
  destruct (run (Some o) _); simpl in *. f_equal; auto.
Qed.

Lemma last_access_same_object o (h : list (event Obj Arg)) :
  (forall t o', In (Access t o') h -> o' = Some o) ->
  (exists t, In (Access t (Some o)) h) -> last_access h = Some o.
Proof.
  unfold last_access.
  assert (G : forall (h : list (event Obj Arg)) acc,
    (forall t o', In (Access t o') h -> o' = Some o) ->
    acc = Some o \/ (exists t, In (Access t (Some o)) h) ->
    fold_left (fun acc e => match e with Access _ o => o | Call _ _ => acc end) h acc = Some o).
  { clear h. induction h as [|[t o'|t x] h IH]; intros acc Hall Hex; simpl.
    - destruct Hex as [|[t []]]; auto.
    - apply IH.
      + intros t' o'' Hin; eapply Hall; right; eauto.
      + left. apply (Hall t); left; auto.
    - apply IH.
      + intros t' o'' Hin; eapply Hall; right; eauto.
      + destruct Hex as [|[t' [[=]|Hin]]]; auto. right; eauto. }
  intros; apply G; auto.
Qed.

Lemma interleaving_call_has_access (prog : nat -> list (Obj * Arg)) h1 t x h2 :
  interleaving prog (h1 ++ Call t x :: h2) ->
  exists o, In (o, x) (prog t) /\ In (Access t (Some o)) h1.
Proof.
  intros H. specialize (H t). rewrite filter_app in H. simpl in H.
  rewrite Nat.eqb_refl in H.
  set (g := filter (fun e : event Obj Arg => thread_of e =? t) h1) in *.
  assert (Hg : forall e, In e g -> In e h1) by (intros e He; apply filter_In in He; tauto).
  set (r := filter _ h2) in H. clearbody g r.
  cut (exists o, In (o, x) (prog t) /\ In (Access t (Some o)) g).
  { intros (o & H1 & H2); eauto. }
  clear Hg h1 h2. revert g H. induction (prog t) as [|[o y] l IH]; intros g H; simpl in H.
  - destruct g; discriminate.
  - destruct g as [|e1 [|e2 g]]; simpl in H.
    + discriminate.
    + injection H as -> -> Hr. exists o; split; left; auto.
    + injection H as -> -> Hr. apply IH in Hr as (o' & H1 & H2).
      exists o'; split; right; auto. right; auto.
Qed.

Lemma interleaving_access (prog : nat -> list (Obj * Arg)) h t o :
  interleaving prog h -> In (Access t o) h -> exists o' x, o = Some o' /\ In (o', x) (prog t).
Proof.
  intros H Hin. specialize (H t).
  assert (Hf : In (Access t o) (filter (fun e : event Obj Arg => thread_of e =? t) h)).
  { apply filter_In; split; auto. simpl. apply Nat.eqb_refl. }
  rewrite H in Hf. unfold evaluations in Hf. apply in_flat_map in Hf as ([o' x] & H1 & H2).
  destruct H2 as [[= <-]|[[=]|[]]]. eauto.
Qed.

Lemma interleaving_same_object (prog : nat -> list (Obj * Arg)) o h1 t x h2 :
  (forall t p, In p (prog t) -> fst p = o) ->
  interleaving prog (h1 ++ Call t x :: h2) ->
  nth_error (fst (run d_init (h1 ++ Call t x :: h2))) (calls h1) = Some (Ok (inner o x)).
Proof.
  intros Hsame Hi. rewrite call_result.
  rewrite (last_access_same_object o h1); auto.
  - intros t' o' Hin.
    destruct (interleaving_access prog _ t' o' Hi) as (o'' & y & -> & Hp).
    + apply in_or_app; left; eauto.
    + apply Hsame in Hp. simpl in Hp. congruence.
  - destruct (interleaving_call_has_access _ _ _ _ _ Hi) as (o' & Hp & Ha).
    apply Hsame in Hp. simpl in Hp. subst o'. eauto.
Qed.

Lemma interleaving_wrong o1 o2 x y :
  let prog := fun t => match t with 0 => [(o1, x)] | 1 => [(o2, y)] | _ => [] end in
  let h := [Access 0 (Some o1); Access 1 (Some o2); Call 0 x; Call 1 y] in
  interleaving prog h /\
  nth_error (fst (run d_init h)) 0 = Some (Ok (inner o2 x)).
Proof.
  split.
  - intros [|[|t]]; reflexivity.
  - reflexivity.
Qed.
End Dec.
