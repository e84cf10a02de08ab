(** Default sampling frequencies of a basis. *)
From Coq Require Import Reals ZArith Arith Bool Lra Lia String.
From Coquelicot Require Import Coquelicot.
From Coq Require Import List Sorting.Sorted.
From Verif.Model Require Import Base Util Num Roots Matsubara Poly FT SVE Basis Augment NDArray Sampling DLR Defaults.
From Verif.Spec Require Import SRoots SMatsubara SPoly SFT SSVE SBasis SSampling SDefaults.
From Verif.Proofs Require Import BaseFacts RootsFacts RootsDiscr RootsExtr MatsubaraFacts DefaultMatsubara
  SumFacts LegFacts PPolyFacts FTFacts FTCall FTProps BasisInit BasisProps BasisOps BasisPhys AdapterProps PointwiseFacts.
Import ListNotations.
Open Scope R_scope.
Notation length := List.length.

Definition ft_of (q : freq) : ftfreq := match q with Even => FEven | Odd => FOdd end.

(** ** The full transform *)
Lemma full_facts compute b : built compute b ->
  exists lam, klam (bkernel b) = Some lam /\
    ft_init (full_u (bsve b) (bbeta b)) (ft_of (stat_freq b)) (AsympAt (40 * lam)) None = Ok (buhat_full b).
Proof.
  intros Hb. destruct (built_inv compute b Hb) as (lam & q & f & f' & _ & _ & _ & _ & Hl & _ & Hq & _ & Hf & _ & E).
  exists lam. split; auto. replace (buhat_full b) with f by (rewrite E; reflexivity).
  replace (ft_of (stat_freq b)) with q; auto. unfold stat_freq.
  destruct (even_odd_inv _ _ Hq) as [[-> ->]|[-> ->]]; reflexivity.
Qed.

Lemma freq_ok_of q n : freq_ok (ft_of q) n <-> (n mod 2 = zeta q)%Z.
Proof.
  pose proof (Zmod_even n) as H. destruct q; cbn; rewrite H; destruct (Z.even n); split; intros; try reflexivity; discriminate.
Qed.

Lemma nu_ok b x : freq_ok (ft_of (stat_freq b)) (nu b x).
Proof. apply freq_ok_of. unfold nu. apply shift_parity. Qed.

Section Full.
Variable compute : kern -> option R -> res sve_result.
Variable b : basis.
Hypothesis Hb : built compute b.
Let F := buhat_full b.
Let q := stat_freq b.
Let N := length (ss (bsve b)).

Lemma full_shape : ffreq F = ft_of q /\ length (fcols F) = N /\ (0 < N)%nat /\ fresh (full_u (bsve b) (bbeta b)) /\
  fcols F = vcols (full_u (bsve b) (bbeta b)).
Proof.
  destruct (full_facts compute b Hb) as (lam & _ & Hf).
  pose proof (ok_r compute b Hb) as (Fr & _ & _ & _ & _ & _ & Lu & _ & Hne & _).
  pose proof (ft_init_val _ _ _ _ _ Hf) as (G & K & Q & _). split; [exact Q|]. 
  split. { unfold F. rewrite K. unfold full_u. cbn [vcols]. unfold scaled_cols. rewrite map_length. exact Lu. }
  split. { unfold N. destruct (ss (bsve b)); [congruence|]. cbn. lia. }
  split; [|exact K]. apply full_fresh, Fr.
Qed.

Lemma full_nth l : (l < N)%nat -> exists c, nth_error (vcols (su (bsve b))) l = Some c /\
  nth_error (fcols F) l = Some (Col (fun k i => sqrt (bbeta b) * cdat c k i) (csym c)).
Proof.
  intros Hl. pose proof (ok_r compute b Hb) as (_ & _ & _ & _ & _ & _ & Lu & _).
  destruct (nth_error (vcols (su (bsve b))) l) as [c|] eqn:E; [|apply nth_error_None in E; unfold N in Hl; lia].
  exists c. split; auto. destruct full_shape as (_ & _ & _ & _ & ->). unfold full_u. cbn [vcols]. unfold scaled_cols.
  rewrite nth_error_map, E. reflexivity.
Qed.

Lemma full_call n : freq_ok (ft_of q) n -> exists M, ft_call F [n] = Ok M /\ length M = N /\
  forall l, (l < N)%nat -> nth_error M l = Some [hat F l n].
Proof.
  intros Hn. destruct (full_facts compute b Hb) as (lam & _ & Hf). destruct full_shape as (HQ & HK & HN & Hfr & HC).
  destruct (proj1 (ft_call_iff _ _ _ _ _ [n] Hfr Hf)) as (M & EM & LM & RM); [repeat constructor; auto|].
  fold F in EM. exists M. split; auto. rewrite <- HC, HK in LM. split; auto. intros l Hl.
  destruct (nth_error M l) as [row|] eqn:E; [|apply nth_error_None in E; lia].
  rewrite Forall_forall in RM. specialize (RM row (nth_error_In _ _ E)).
  unfold hat, at_point. rewrite EM. rewrite (nth_error_nth _ _ [] E). destruct row as [|v [|? ?]]; try discriminate. reflexivity.
Qed.

(** Selecting function l and searching it. *)
Lemma item_facts (l : Z) k c : pyindex (fcols F) l = Some c -> nth_error (fcols F) k = Some c ->
  (forall B (m : list B), length m = N -> pyindex m l = nth_error m k) ->
  exists p, ft_item F l = Ok p /\ fcols p = [c] /\ ffreq p = ft_of q /\
    forall n, freq_ok (ft_of q) n -> ft_call p [n] = Ok [[hat F k n]].
Proof.
  intros Hc Hk Hpy. destruct (full_facts compute b Hb) as (lam & _ & Hf). destruct full_shape as (HQ & HK & HN & Hfr & HC).
  assert (Hq : ft_of q <> FAny) by (destruct q; discriminate).
  pose proof Hc as Hc'. rewrite HC in Hc'.
  destruct (ft_indexing _ _ _ _ l c Hfr Hf Hq Hc') as (p & Ep & Hp). fold F in Ep, Hp.
  exists p. split; auto. 
  assert (Hcp : fcols p = [c] /\ ffreq p = ft_of q).
  { unfold ft_item in Ep. rewrite Hc in Ep. destruct (fmodel F) as [ms|].
    - destruct (pyindex ms l); [|discriminate]. apply ft_init_val in Ep as (_ & K & Q & _). rewrite K, Q. auto.
    - apply ft_init_val in Ep as (_ & K & Q & _). rewrite K, Q. auto. }
  destruct Hcp as [H1 H2]. split; auto. split; auto. intros n Hn.
  destruct (full_call n Hn) as (M & EM & LM & RM). destruct (Hp _ _ EM) as (row & E1 & E2). rewrite E2. 
  rewrite Hpy in E1 by auto. rewrite RM in E1 by (rewrite <- HK; apply nth_error_Some; congruence). injection E1 as <-. reflexivity.
Qed.

Lemma searched_item_facts (l : Z) k c : pyindex (fcols F) l = Some c -> nth_error (fcols F) k = Some c ->
  (forall B (m : list B), length m = N -> pyindex m l = nth_error m k) ->
  match func_part (csym c) (ft_zeta (ft_of q)) with
  | Raise e => searched_item F l = Raise e
  | Ok part => exists g, searched_item F l = Ok g /\
      forall x, g x = match part with RealPart => Re (hat F k (nu b x)) | ImagPart => Im (hat F k (nu b x)) end
  end.
Proof.
  intros Hc Hk Hpy. destruct (item_facts l k c Hc Hk Hpy) as (p & Ep & Cp & Qp & Hp).
  unfold searched_item. rewrite Ep. cbn [bind]. unfold searched. rewrite Cp, Qp.
  replace (search_freq (ft_of q)) with (Ok q : res freq) by (destruct q; reflexivity). cbn [bind].
  destruct (func_part (csym c) (ft_zeta (ft_of q))) as [part|e]; cbn [bind]; [|reflexivity].
  assert (Hz : freq_ok (ft_of q) (zeta q)). { apply freq_ok_of. destruct q; reflexivity. }
  rewrite (Hp _ Hz). cbn [bind]. eexists. split; [reflexivity|]. intros x. cbv beta zeta.
  fold (nu b x). change (2 * x + zeta q)%Z with (nu b x). rewrite (Hp _ (nu_ok b x)). reflexivity.
Qed.

(** Functions of definite parity have transforms on one axis. *)
Lemma definite_axis l part c : nth_error (vcols (su (bsve b))) l = Some c -> definite (bsve b) l ->
  func_part (csym c) (ft_zeta (ft_of q)) = Ok part ->
  forall n, freq_ok (ft_of q) n -> match part with RealPart => Im (hat F l n) = 0 | ImagPart => Re (hat F l n) = 0 end.
Proof.
  intros Hc Hd Hpart n Hn. destruct (Hd c Hc) as [Hs Hp]. destruct (full_facts compute b Hb) as (lam & _ & Hf).
  destruct full_shape as (HQ & HK & HN & Hfr & HC).
  assert (Hl : (l < N)%nat).
  { unfold N. pose proof (ok_r compute b Hb) as (_ & _ & _ & _ & _ & _ & Lu & _). rewrite <- Lu. apply nth_error_Some. congruence. }
  destruct (full_nth l Hl) as (c' & E1 & E2). rewrite Hc in E1. injection E1 as <-.
  destruct (full_call n Hn) as (M & EM & LM & RM).
  set (c' := Col (fun k i => sqrt (bbeta b) * cdat c k i) (csym c)) in *.
  destruct (ft_parity _ _ _ _ [n] M l c' 0 (hat F l n) Hfr Hf) as (part' & P1 & P2); auto.
  - destruct (stat_freq b); discriminate.
  - rewrite <- HC. exact E2.
  - unfold entry. rewrite RM by auto. reflexivity.
  - cbn [csym c']. rewrite Hs, pow_m1. destruct (Nat.even l); auto.
  - cbn [csym c']. rewrite Hs. unfold full_u. cbn [vgeom]. destruct Hp as [K1 K2]. split; auto. intros i x Hi Hx.
    assert (Hcv : forall y, cval (vgeom (su (bsve b))) c' y = sqrt (bbeta b) * cval (vgeom (su (bsve b))) c y).
    { intros y. unfold cval, c'. cbn [cdat]. unfold legval. rewrite <- Rmult_assoc. f_equal.
      rewrite <- sumn_scal. apply sumn_ext. intros; ring. }
    rewrite !Hcv, (K2 i x Hi Hx). ring.
  - unfold c' in P1. cbn [csym] in P1. fold q in P1. rewrite Hpart in P1. injection P1 as <-. exact P2.
Qed.

Lemma part_defined l c : nth_error (vcols (su (bsve b))) l = Some c -> csym c = (-1) ^ l ->
  exists part, func_part (csym c) (ft_zeta (ft_of q)) = Ok part.
Proof.
  intros _ Hs. assert (Hpm : csym c = 1 \/ csym c = -1) by (rewrite Hs, pow_m1; destruct (Nat.even l); auto).
  destruct q; cbn [ft_of ft_zeta]; rewrite func_part_pm by auto; eauto.
Qed.

End Full.
