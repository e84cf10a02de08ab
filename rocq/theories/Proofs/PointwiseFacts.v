(** Evaluation on arrays of any shape. *)
From Coq Require Import String ZArith Arith Bool Reals Lia Lra.
From Coquelicot Require Import Coquelicot.
From Coq Require Import List Sorted Permutation.
From Verif.Model Require Import Base Util Num Poly FT SVE Basis Kernel NDArray Sampling DLR.
From Verif.Spec Require Import SUtil SPoly SFT SBasis SSampling.
From Verif.Proofs Require Import BaseFacts SumFacts UtilFacts PPolyFacts FTFacts FTModel FTCall BasisFacts BasisInit BasisOps BasisPhys
  AugmentFacts AugmentProps NDFacts KernelFacts.
Import ListNotations.
Open Scope R_scope.
Notation length := List.length.

Lemma flat_lt s idx : valid_index s idx -> (flat_index s idx < prod s)%nat.
Proof.
  induction 1 as [|i n idx s Hi H IH]; cbn [flat_index prod]; [lia|].
  assert (prod s * (S i) <= prod s * n)%nat by (apply Nat.mul_le_mono_l; lia). lia.
Qed.

Lemma unravel_flat s idx : valid_index s idx -> unravel_index s (flat_index s idx) = idx.
Proof.
  induction 1 as [|i n idx s Hi H IH]; cbn [flat_index unravel_index]; [reflexivity|].
  pose proof (flat_lt _ _ H) as L.
  rewrite Nat.div_add_l by lia. rewrite Nat.div_small by lia. rewrite Nat.add_0_r. f_equal.
  rewrite Nat.add_comm, Nat.mod_add by lia. rewrite Nat.mod_small by lia. exact IH.
Qed.

Lemma unravel_valid s k : (k < prod s)%nat -> valid_index s (unravel_index s k) /\ flat_index s (unravel_index s k) = k.
Proof.
  revert k; induction s as [|n s IH]; intros k Hk; cbn [prod unravel_index flat_index] in *; [split; [constructor|lia]|].
  assert (P : (prod s <> 0)%nat) by (intros E; rewrite E in Hk; lia).
  destruct (IH (k mod prod s)) as [V F]; [now apply Nat.mod_upper_bound|]. split.
  - constructor; [|exact V]. apply Nat.div_lt_upper_bound; [exact P|]. lia.
  - rewrite F. rewrite Nat.mul_comm. symmetry. now apply Nat.div_mod.
Qed.

Lemma map_seq_error {B} (f : nat -> B) n l : (l < n)%nat -> nth_error (map f (seq 0 n)) l = Some (f l).
Proof.
  intros H. rewrite nth_error_map, (nth_error_nth' _ 0%nat) by now rewrite seq_length. now rewrite seq_nth.
Qed.

Lemma ravel_len {A} (x : nd A) : length (ravel x) = prod (shp x).
Proof. unfold ravel. now rewrite map_length, seq_length. Qed.

Lemma ravel_nth {A} (x : nd A) idx : valid_index (shp x) idx -> nth_error (ravel x) (flat_index (shp x) idx) = Some (elt x idx).
Proof.
  intros H. unfold ravel. pose proof (flat_lt _ _ H) as L.
  rewrite map_seq_error by assumption. now rewrite unravel_flat.
Qed.

Lemma ravel_in {A} (x : nd A) a : In a (ravel x) <-> exists idx, valid_index (shp x) idx /\ elt x idx = a.
Proof.
  split.
  - unfold ravel. rewrite in_map_iff. intros (k & <- & Hk). apply in_seq in Hk.
    exists (unravel_index (shp x) k). split; [apply unravel_valid; lia|reflexivity].
  - intros (idx & V & <-). eapply nth_error_In. now apply ravel_nth.
Qed.

Lemma nth_error_nth_d {A} (l : list A) n x d : nth_error l n = Some x -> nth n l d = x.
Proof. intros H. eapply nth_error_nth in H. exact H. Qed.

(** Any pointwise evaluation, applied to an array of any shape. *)
Lemma raveled_pointwise {P A} (d : A) (eval : list P -> res (list (list A))) L : pointwise d eval L ->
  forall x,
  (is_ok (raveled d eval x) <-> forall idx, valid_index (shp x) idx -> is_ok (eval [elt x idx])) /\
  forall y, raveled d eval x = Ok y ->
    shp y = L :: shp x /\
    forall l idx, (l < L)%nat -> valid_index (shp x) idx -> elt y (l :: idx) = at_point d eval (elt x idx) l.
Proof.
  intros H x. destruct (H (ravel x)) as [H1 H2]. unfold raveled. split.
  - transitivity (is_ok (eval (ravel x))).
    + destruct (eval (ravel x)); cbn; split; intros [z E]; try discriminate; eexists; reflexivity.
    + rewrite H1. split.
      * intros F idx V. apply F, ravel_in. eauto.
      * intros F p I. apply ravel_in in I. destruct I as (idx & V & <-). auto.
  - intros y. destruct (eval (ravel x)) as [M|]; [|discriminate]. cbn [bind]. intros [= <-].
    destruct (H2 M eq_refl) as [LM RM]. cbn [shp elt reshape_rows]. split; [congruence|].
    intros l idx Hl V. cbn [elt]. destruct (nth_error M l) as [row|] eqn:E; [|apply nth_error_None in E; lia].
    rewrite (nth_error_nth_d _ _ _ [] E). rewrite (RM l row E).
    apply nth_error_nth_d. rewrite (map_nth_error _ _ _ (ravel_nth x idx V)). reflexivity.
Qed.

Lemma pointwise_of {P A} (d : A) (eval : list P -> res (list (list A))) L (dom : P -> Prop) (V : nat -> P -> A) :
  (forall ps M, eval ps = Ok M <-> Forall dom ps /\ M = map (fun l => map (V l) ps) (seq 0 L)) ->
  pointwise d eval L /\ forall p l, dom p -> (l < L)%nat -> at_point d eval p l = V l p.
Proof.
  intros H.
  assert (AT : forall p l, dom p -> (l < L)%nat -> at_point d eval p l = V l p).
  { intros p l Hp Hl. unfold at_point.
    assert (E : eval [p] = Ok (map (fun l => map (V l) [p]) (seq 0 L))) by (apply H; auto).
    rewrite E. rewrite (nth_error_nth_d _ l [V l p] []); [reflexivity|].
    now rewrite map_seq_error by assumption. }
  split; [|exact AT]. intros ps. split.
  - split.
    + intros [M E] p I. apply H in E. destruct E as [F _]. rewrite Forall_forall in F.
      eexists. apply H. split; [|reflexivity]. auto.
    + intros F. eexists. apply H. split; [|reflexivity]. apply Forall_forall. intros p I.
      destruct (F p I) as [M E]. apply H in E. destruct E as [E _]. now inversion E.
  - intros M E. apply H in E. destruct E as [F ->]. split; [now rewrite map_length, seq_length|].
    intros l row E.
    assert (Hl : (l < L)%nat). { assert (Q : nth_error (map (fun l => map (V l) ps) (seq 0 L)) l <> None) by congruence.
      apply nth_error_Some in Q. now rewrite map_length, seq_length in Q. }
    rewrite map_seq_error in E by assumption.
    injection E as <-. apply map_ext_in. intros p I. rewrite Forall_forall in F. symmetry. auto.
Qed.

Lemma map_by_index {A B} (d : A) (f : A -> B) l : map f l = map (fun i => f (nth i l d)) (seq 0 (length l)).
Proof. rewrite <- (map_nth_seq d l) at 1. now rewrite map_map. Qed.

(** Piecewise polynomials, for the time functions of a basis. *)
Lemma u_pointwise compute b : built compute b ->
  pointwise (RtoC 0) (sb_u (sb_of_basis b)) (bsize b).
Proof.
  intros Hb. destruct (bu_fresh compute b Hb) as (Hg & Hl & Hs). set (g := vgeom (bu b)) in *.
  destruct (vcols (bu b)) as [|c0 cs] eqn:Ec.
  - apply (pointwise_of _ _ _ (fun x => gxmin g <= x <= gxmax g) (fun l x => RtoC 0)).
    intros ps M. cbn [sb_of_basis sb_u]. rewrite <- Hs. cbn [length seq map]. split.
    + destruct (vcall_arr (bu b) ps) as [M'|] eqn:E; [|discriminate]. cbn [bind]. intros [= <-].
      apply (vcall_arr_ok _ _ _ Hg Hl) in E. rewrite Ec in E. destruct E as [F ->]. auto.
    + intros [F ->]. assert (E : vcall_arr (bu b) ps = Ok []) by (apply (vcall_arr_ok _ _ _ Hg Hl); rewrite Ec; auto).
      now rewrite E.
  - apply (pointwise_of _ _ _ (fun x => gxmin g <= x <= gxmax g) (fun l x => RtoC (cval g (nth l (vcols (bu b)) c0) x))).
    intros ps M. cbn [sb_of_basis sb_u]. rewrite <- Hs, <- Ec.
    assert (E0 : map (map RtoC) (map (fun c => map (cval g c) ps) (vcols (bu b))) =
                 map (fun l => map (fun x => RtoC (cval g (nth l (vcols (bu b)) c0) x)) ps) (seq 0 (length (vcols (bu b))))).
    { rewrite map_map. rewrite (map_by_index c0). apply map_ext. intros i. now rewrite map_map. }
    split.
    + destruct (vcall_arr (bu b) ps) as [M'|] eqn:E; [|discriminate]. cbn [bind]. intros [= <-].
      apply (vcall_arr_ok _ _ _ Hg Hl) in E. destruct E as [F ->]. split; [exact F|exact E0].
    + intros [F ->]. assert (E : vcall_arr (bu b) ps = Ok (map (fun c => map (cval g c) ps) (vcols (bu b)))) by (apply (vcall_arr_ok _ _ _ Hg Hl); auto).
      rewrite E. cbn [bind]. now rewrite E0.
Qed.

Lemma ft_pointwise f : geom_ok (fgeom f) -> (0 < gorder (fgeom f))%nat -> glen (fgeom f) = gorder (fgeom f) ->
  pointwise (RtoC 0) (ft_call f) (length (fcols f)).
Proof.
  intros Hg Ho Hl. assert (Hn : (0 < gnseg (fgeom f))%nat) by apply Hg.
  set (V := fun l n => match nth_error (fcols f) l with Some c => ft_value f l c n | None => RtoC 0 end).
  apply (pointwise_of _ _ _ (freq_ok (ffreq f)) V).
  assert (E0 : forall ps, ft_rows f ps = map (fun l => map (V l) ps) (seq 0 (length (fcols f)))).
  { intros ps. unfold ft_rows, V. 
    assert (G : forall cols s (W : nat -> option col), (forall i c, nth_error cols i = Some c -> W (s + i)%nat = Some c) ->
      map (fun lc => map (ft_value f (fst lc) (snd lc)) ps) (combine (seq s (length cols)) cols) =
      map (fun l => map (fun n => match W l with Some c => ft_value f l c n | None => RtoC 0 end) ps) (seq s (length cols))).
    { induction cols as [|c cols IH]; intros s W HW; [reflexivity|]. cbn [length seq combine map]. f_equal.
      - cbn [fst snd]. pose proof (HW 0%nat c eq_refl) as E. rewrite Nat.add_0_r in E. rewrite E. reflexivity.
      - apply IH. intros i c' Hi. rewrite Nat.add_succ_l, <- Nat.add_succ_r. now apply HW. }
    apply (G (fcols f) 0%nat (nth_error (fcols f))). intros i c Hi. exact Hi. }
  intros ps M. split.
  - intros E. destruct (Forall_dec (freq_ok (ffreq f)) ltac:(intros n; unfold freq_ok; destruct (ffreq f); [left; exact I|destruct (Z.even n); [left|right]; congruence|destruct (Z.even n); [right|left]; congruence]) ps) as [F|F].
    + split; [exact F|]. rewrite ft_call_ok in E by assumption. rewrite <- E0. congruence.
    + rewrite ft_call_freq in E by assumption. discriminate.
  - intros [F ->]. rewrite ft_call_ok by assumption. now rewrite E0.
Qed.

Lemma uhat_pointwise compute b : built compute b -> pointwise (RtoC 0) (ft_call (buhat b)) (bsize b).
Proof.
  intros Hb. destruct (buhat_shape compute b Hb) as (q & ms & _ & _ & Hg & Ho & Hl & _ & _ & Hs & _).
  rewrite <- Hs. now apply ft_pointwise.
Qed.
