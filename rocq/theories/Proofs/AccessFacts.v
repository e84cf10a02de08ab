(** Proofs for C94. *)
From Coq Require Import String ZArith Arith Bool Reals Lia Lra.
From Coquelicot Require Import Coquelicot.
From Coq Require Import List.
From Verif.Model Require Import Base Util Num Poly FT SVE Basis Kernel NDArray Sampling Augment DLR Access.
From Verif.Spec Require Import SUtil SGauss SPoly SFT SSVE SBasis SKernel SAugment SAccess.
From Verif.Proofs Require Import BaseFacts PPolyFacts BasisInit BasisOps BasisPhys BasisProps AugmentFacts AugmentProps DLRFacts.
Import ListNotations.
Open Scope R_scope.
Notation length := List.length.

Section Access.
Variable compute : kern -> option R -> res sve_result.
Variable svd : mat -> svd_result.
Variable logistic : bool.

Lemma init_fields st beta wmax eps ms ker r b : basis_init compute st beta wmax eps ms ker (Some r) = Ok b ->
  0 < beta /\ bstat b = st /\ bbeta b = beta /\ bwmax b = wmax /\ bsve b = r.
Proof.
  unfold basis_init. destruct (Rltb 0 beta) eqn:Eb; [|discriminate]. apply Rltb_true in Eb. cbn [negb].
  destruct (Rleb 0 wmax); [|discriminate]. cbn [negb].
  destruct (get_kernel _ _ _) as [k|]; [|discriminate]. cbn [bind].
  destruct (part _ _ _) as [[[u s] v]|]; [|discriminate]. cbn [bind].
  destruct (match s with [] => Raise IndexError | s0 :: _ => _ end); [|discriminate]. cbn [bind].
  destruct (rescaled u _ _); [|discriminate]. cbn [bind]. destruct (rescaled v _ _); [|discriminate]. cbn [bind].
  destruct (klam k); [|discriminate]. destruct (even_odd st); [|discriminate]. cbn [bind].
  destruct (ft_init _ _ _ None); [|discriminate]. cbn [bind]. destruct (ft_slice _ _); [|discriminate]. cbn [bind].
  intros H. injection H as <-. auto.
Qed.

Lemma init_kernel st beta wmax eps ms k r b : basis_init compute st beta wmax eps ms (Some k) r = Ok b -> bkernel b = k.
Proof.
  unfold basis_init. destruct (Rltb 0 beta); [|discriminate]. cbn [negb].
  destruct (Rleb 0 wmax); [|discriminate]. cbn [negb].
  destruct (get_kernel _ _ _) as [k'|] eqn:Ek; [|discriminate]. cbn [bind].
  destruct (match r with Some r => Ok r | None => compute k' eps end); [|discriminate]. cbn [bind].
  destruct (part _ _ _) as [[[u s] v]|]; [|discriminate]. cbn [bind].
  destruct (match s with [] => Raise IndexError | s0 :: _ => _ end); [|discriminate]. cbn [bind].
  destruct (rescaled u _ _); [|discriminate]. cbn [bind]. destruct (rescaled v _ _); [|discriminate]. cbn [bind].
  destruct (klam k'); [|discriminate]. destruct (even_odd st); [|discriminate]. cbn [bind].
  destruct (ft_init _ _ _ None); [|discriminate]. cbn [bind]. destruct (ft_slice _ _); [|discriminate]. cbn [bind].
  intros H. injection H as <-. cbn [bkernel]. unfold get_kernel in Ek.
  destruct (negb (stat_in st)); [discriminate|]. destruct (klam k); [|congruence].
  destruct (lam_close _ _); congruence.
Qed.

Lemma getitem_inv b i b' : built compute b -> basis_getitem compute b i = Ok b' -> built compute b' /\ same_setting b b'.
Proof.
  intros Hb H. unfold basis_getitem in H. destruct (slice_to_size i) as [n|]; [|discriminate]. cbn [bind] in H.
  destruct (init_fields _ _ _ _ _ _ _ _ H) as (Hp & E1 & E2 & E3 & E4). pose proof (init_kernel _ _ _ _ _ _ _ _ H) as E5.
  split; [|repeat split; auto]. exists (bstat b), (bbeta b), (bwmax b), None, n, (Some (bkernel b)), (Some (bsve b)).
  rewrite E4. split; auto. split; [apply (ok_r compute b Hb)|apply (wmax_pos compute b Hb)].
Qed.

Lemma rescale_inv b t b' lam : built compute b -> klam (bkernel b) = Some lam -> rescale compute b t = Ok b' ->
  built compute b' /\ bstat b' = bstat b /\ bbeta b' = t /\ bwmax b' = lam / t /\ 0 < t /\
  bkernel b' = bkernel b /\ bsve b' = bsve b.
Proof.
  intros Hb Hl H. unfold rescale in H. rewrite Hl in H. destruct (Reqb t 0); [discriminate|].
  destruct (init_fields _ _ _ _ _ _ _ _ H) as (Hp & E1 & E2 & E3 & E4). pose proof (init_kernel _ _ _ _ _ _ _ _ H) as E5.
  destruct (built_inv compute b Hb) as (lam' & _ & _ & _ & _ & _ & _ & _ & Hl' & Hlp & _).
  assert (lam' = lam) by congruence. subst lam'.
  split; [|repeat split; auto].
  exists (bstat b), t, (lam / t), None, (Some (PyInt (Z.of_nat (bsize b)))), (Some (bkernel b)), (Some (bsve b)).
  rewrite E4. split; auto. split; [apply (ok_r compute b Hb)|apply Rdiv_lt_0_compat; auto].
Qed.

Lemma lam_of b : built compute b -> exists lam, klam (bkernel b) = Some lam /\ 0 < lam /\
  Rabs (lam - b_lambda b) <= 4 / 10 ^ 16 * b_lambda b.
Proof.
  intros Hb. destruct (built_inv compute b Hb) as (lam & q & f & f' & Hbe & Hw & _ & Hk & Hl & Hlp & _).
  exists lam. split; auto. split; auto. unfold get_kernel in Hk. rewrite Hl in Hk.
  destruct (negb (stat_in (bstat b))); [discriminate|]. destruct (lam_close lam (bbeta b * bwmax b)) eqn:E; [|discriminate].
  unfold lam_close in E. apply Rleb_true in E. unfold b_lambda.
  rewrite (Rabs_pos_eq (bbeta b * bwmax b)) in E; [exact E|]. apply Rlt_le, Rmult_lt_0_compat; auto.
Qed.

(** What every object satisfies. *)
Definition good (o : obj) : Prop := built compute (inner o) /\
  match o with
  | ODlr d => dl_poles d <> [] /\ tp_poles (dl_u d) = dl_poles d /\ mp_poles (dl_uhat d) = dl_poles d
  | _ => True
  end.

Lemma augbasis_inner b args a : augbasis_init b args = Ok a -> abasis a = b.
Proof. unfold augbasis_init. destruct (aug_factory b args); [|discriminate]. cbn [bind]. intros H. injection H as <-. auto. Qed.

Lemma dlr_fields b lg poles d : dlr_init svd b lg poles = Ok d ->
  dl_basis d = b /\ dl_poles d = poles /\ poles <> [] /\ tp_poles (dl_u d) = poles /\ mp_poles (dl_uhat d) = poles.
Proof.
  unfold dlr_init. destruct lg; [|discriminate]. cbn [negb]. unfold taupoles_init.
  destruct (rmax_list (map Rabs poles)) as [m|] eqn:Em; [|discriminate]. cbn [bind].
  destruct (vcall_arr (bv b) poles); [|discriminate]. cbn [bind].
  destruct (decomposed svd _ _); [|discriminate]. cbn [bind]. intros H. injection H as <-.
  cbn [dl_basis dl_poles dl_u dl_uhat tp_poles mp_poles]. repeat split; auto. intros ->. discriminate.
Qed.

Lemma step_inv o p o' : good o -> step compute svd logistic o p = Some (Ok o') ->
  good o' /\ bstat (inner o') = bstat (inner o) /\ bkernel (inner o') = bkernel (inner o) /\ bsve (inner o') = bsve (inner o) /\
  match p with
  | Rescale t => 0 < t /\ bbeta (inner o') = t /\ forall lam, klam (bkernel (inner o)) = Some lam -> bwmax (inner o') = lam / t
  | _ => bbeta (inner o') = bbeta (inner o) /\ bwmax (inner o') = bwmax (inner o)
  end.
Proof.
  intros (Hb & Hd) H. destruct o as [b|a|d], p as [i|t|args|poles]; cbn [step inner] in *;
    try discriminate H.
  - destruct (basis_getitem compute b i) as [b'|] eqn:E; [|discriminate]. cbn [bind] in H. injection H as <-.
    destruct (getitem_inv b i b' Hb E) as (Hb' & E1 & E2 & E3 & E4 & E5). cbn [inner]. repeat split; auto.
  - destruct (rescale compute b t) as [b'|] eqn:E; [|discriminate]. cbn [bind] in H. injection H as <-.
    destruct (lam_of b Hb) as (lam & Hl & _). destruct (rescale_inv b t b' lam Hb Hl E) as (Hb' & E1 & E2 & E3 & E4 & E5 & E6).
    cbn [inner]. repeat split; auto. intros l Hl'. congruence.
  - destruct (augbasis_init b args) as [a|] eqn:E; [|discriminate]. cbn [bind] in H. injection H as <-.
    apply augbasis_inner in E. unfold good. cbn [inner]. rewrite E. repeat split; auto.
  - destruct (dlr_init svd b logistic poles) as [d|] eqn:E; [|discriminate]. cbn [bind] in H. injection H as <-.
    destruct (dlr_fields _ _ _ _ E) as (E1 & E2 & E3 & E4 & E5). unfold good. cbn [inner]. rewrite E1, E2, E4, E5. repeat split; auto.
  - destruct (aug_index i) as [i'|]; [|discriminate].
    destruct (augbasis_getitem compute a i') as [a'|] eqn:E; [|discriminate]. cbn [bind] in H. injection H as <-.
    unfold augbasis_getitem in E. destruct (aug_slice_to_size i') as [st|]; [|discriminate]. cbn [bind] in E.
    destruct (st <=? Z.of_nat (naug a))%Z; [discriminate|].
    destruct (basis_getitem compute (abasis a) _) as [b'|] eqn:Eb; [|discriminate]. cbn [bind] in E.
    apply augbasis_inner in E. destruct (getitem_inv _ _ _ Hb Eb) as (Hb' & E1 & E2 & E3 & E4 & E5).
    unfold good. cbn [inner]. rewrite E. repeat split; auto.
  - destruct (aug_factory (dl_basis d) args); discriminate.
Qed.

Lemma history_inv ps : forall o o', good o -> history compute svd logistic o ps = Some (Ok o') ->
  good o' /\ bstat (inner o') = bstat (inner o) /\ bkernel (inner o') = bkernel (inner o) /\ bsve (inner o') = bsve (inner o) /\
  bbeta (inner o') = last (betas ps) (bbeta (inner o)) /\
  (betas ps = [] -> bwmax (inner o') = bwmax (inner o)) /\
  (betas ps <> [] -> forall lam, klam (bkernel (inner o)) = Some lam -> b_lambda (inner o') = lam).
Proof.
  induction ps as [|p ps IH]; intros o o' Hg H.
  - cbn [history] in H. injection H as <-. split; [exact Hg|]. repeat split; auto. intros X; elim X; reflexivity.
  - cbn [history] in H. destruct (step compute svd logistic o p) as [[o1|]|] eqn:E; try discriminate.
    destruct (step_inv o p o1 Hg E) as (G1 & E1 & E2 & E3 & E4).
    destruct (IH o1 o' G1 H) as (G2 & F1 & F2 & F3 & F4 & F5 & F6).
    split; auto. do 3 (split; [congruence|]).
    destruct p as [i|t|args|poles]; cbn [betas flat_map app]; fold (betas ps).
    1,3,4: destruct E4 as (E4 & E5); rewrite F4, E4; split; [reflexivity|split; [intros Hn; rewrite F5; auto|intros Hn lam Hl; apply F6; auto; congruence]].
    destruct E4 as (Ht & E4 & E5). split.
    + rewrite F4, E4. destruct (betas ps) as [|x l] eqn:El; auto.
      clear. revert x t. induction l as [|y l IHl]; intros x t; [reflexivity|]. cbn [last] in *. destruct l; [reflexivity|]. apply (IHl y).
    + split; [discriminate|]. intros _ lam Hl. destruct (betas ps) as [|x l] eqn:El.
      * unfold b_lambda. rewrite F4, F5, E4, (E5 lam Hl) by auto. cbn [last]. field. lra.
      * apply F6; [discriminate|congruence].
Qed.

Lemma made_good b ps o : made compute svd logistic b ps o -> good o.
Proof. intros (Hb & H). apply (history_inv ps (OFinite b) o); auto. exact (conj Hb I). Qed.

Lemma settings b ps o : made compute svd logistic b ps o -> exists lam, klam (bkernel b) = Some lam /\
  0 < o_beta o /\ 0 < o_wmax o /\ o_lambda o = o_beta o * o_wmax o /\
  o_beta o = last (betas ps) (bbeta b) /\ (betas ps = [] -> o_wmax o = bwmax b) /\ (betas ps <> [] -> o_lambda o = lam) /\
  Rabs (lam - o_lambda o) <= 4 / 10 ^ 16 * o_lambda o.
Proof.
  intros HM. pose proof (made_good b ps o HM) as (Hi & _). destruct HM as (Hb & H).
  destruct (history_inv ps (OFinite b) o (conj Hb I) H) as (_ & F1 & F2 & F3 & F4 & F5 & F6). cbn [inner] in *.
  destruct (lam_of b Hb) as (lam & Hl & _). exists lam. split; auto.
  destruct (lam_of (inner o) Hi) as (lam' & Hl' & _ & Hc). assert (lam' = lam) by congruence. subst lam'.
  pose proof (beta_pos compute _ Hi). pose proof (wmax_pos compute _ Hi).
  assert (Eb : o_beta o = bbeta (inner o)) by (destruct o; reflexivity).
  assert (Ew : o_wmax o = bwmax (inner o)) by (destruct o; reflexivity).
  assert (El : o_lambda o = b_lambda (inner o)) by (destruct o; reflexivity).
  rewrite Eb, Ew, El. repeat match goal with |- _ /\ _ => split end; auto.
Qed.

Lemma statistics_kept b ps o : made compute svd logistic b ps o ->
  (bstat b = "F"%string \/ bstat b = "B"%string) /\
  o_statistics o = match o with OAug _ => Raise TypeError | _ => Ok (bstat b) end.
Proof.
  intros HM. destruct HM as (Hb & H).
  destruct (history_inv ps (OFinite b) o (conj Hb I) H) as (_ & F1 & _). cbn [inner] in F1. split.
  - destruct (built_inv compute b Hb) as (lam & q & f & f' & _ & _ & _ & _ & _ & _ & Hq & _). unfold even_odd in Hq.
    destruct (String.eqb_spec (bstat b) "F"); auto. destruct (String.eqb_spec (bstat b) "B"); auto. discriminate.
  - destruct o; cbn [o_statistics inner] in *; try (rewrite F1; reflexivity). reflexivity.
Qed.

Lemma sizes b ps o : made compute svd logistic b ps o ->
  o_shape o = [o_size o] /\ (0 < o_size o)%nat /\
  (forall f tau M, o_u f o tau = Ok M -> length M = o_size o) /\
  (forall f npc ns M, o_uhat f npc o ns = Ok M -> length M = o_size o).
Proof.
  intros HM. pose proof (made_good b ps o HM) as (Hi & Hd).
  split; [destruct o; reflexivity|].
  pose proof (basis_accuracy compute _ Hi) as ((Hs & _) & _).
  assert (Hu : forall augs tau M, augu_call (AugBasis (inner o) augs) tau = Ok M -> length M = (length augs + bsize (inner o))%nat).
  { intros augs tau M HMM. destruct (augu_rows compute _ Hi augs tau M 0 HMM) as (L & _). rewrite L. reflexivity. }
  assert (Hh : forall npc augs ns M, auguhat_call npc (AugBasis (inner o) augs) false ns = Ok M -> length M = (length augs + bsize (inner o))%nat).
  { intros npc augs ns M HMM. destruct (auguhat_rows compute _ Hi augs npc false ns M 0 HMM) as (L & _). rewrite L. reflexivity. }
  destruct o as [b'|a|d]; cbn [inner o_size o_u o_uhat] in *.
  - split; auto. split.
    + intros f tau M H. destruct (vcall_arr (bu b') tau) as [M0|] eqn:E; [|discriminate]. cbn [bind] in H. injection H as <-.
      apply (Hu [] tau). unfold augu_call. cbn [abasis aaugs]. rewrite E. reflexivity.
    + intros f npc ns M H. destruct (ft_call (buhat b') ns) as [M0|] eqn:E; [|discriminate]. cbn [bind] in H. injection H as <-.
      rewrite map_length. apply (Hh false [] ns). unfold auguhat_call. cbn [abasis aaugs]. rewrite E. reflexivity.
  - split; [lia|]. split.
    + intros f tau M H. destruct a as [b' augs]. apply (Hu augs tau M H).
    + intros f npc ns M H. destruct a as [b' augs]. destruct (auguhat_call npc (AugBasis b' augs) false ns) as [M0|] eqn:E; [|discriminate].
      cbn [bind] in H. injection H as <-. rewrite map_length. apply (Hh npc augs ns M0 E).
  - destruct Hd as (H1 & H2 & H3). split; [destruct (dl_poles d); [elim H1; reflexivity|cbn [length]; lia]|]. split.
    + intros f tau M H. unfold taupoles_call in H. destruct (existsb _ _ || existsb _ _); [discriminate|].
      destruct (kernel_call _ _ _ _ _ _); [|discriminate]. cbn [bind] in H. injection H as <-.
      rewrite !map_length, seq_length, H2. reflexivity.
    + intros f npc ns M H. unfold matspoles_call in H. injection H as <-. rewrite map_length, H3. reflexivity.
Qed.

Lemma significance_range b : built compute b -> length (significance b) = bsize b /\ Forall (fun x => 0 < x <= 1) (significance b).
Proof.
  intros Hb. split; [apply map_length|].
  pose proof (basis_accuracy compute b Hb) as (_ & _ & _ & _ & Es & H0 & Hn). cbv zeta in Es.
  apply Forall_forall. intros x Hx. split.
  - rewrite Es in Hx. apply in_map_iff in Hx. destruct Hx as (s & <- & Hin).
    destruct (ok_r compute b Hb) as (_ & _ & _ & _ & _ & _ & _ & _ & Hne & Hpos & _). rewrite Forall_forall in Hpos.
    assert (Hf : In s (ss (bsve b))) by (rewrite <- (firstn_skipn (bsize b)); apply in_or_app; auto).
    apply Rdiv_lt_0_compat; [auto|]. unfold sval. apply Hpos. destruct (ss (bsve b)); [elim Hne; reflexivity|left; reflexivity].
  - destruct (significance b) as [|y l] eqn:E; [contradiction|]. cbn [nth_error] in H0. injection H0 as ->.
    destruct (In_nth_error _ _ Hx) as (i & Hi). destruct i as [|i]; [cbn [nth_error] in Hi; injection Hi as <-; lra|].
    unfold nonincreasing in Hn. inversion Hn as [|? ? _ HF]; subst. rewrite Forall_forall in HF.
    destruct Hx as [<-|Hx]; [lra|]. apply (Rge_le 1 x). specialize (HF x Hx). lra.
Qed.

Lemma significances b ps o : made compute svd logistic b ps o ->
  match o with
  | OFinite _ | ODlr _ => one_each o (o_significance o)
  | OAug a => length (o_significance o) = (o_size o - length (aaugs a))%nat /\ Forall (fun x => 0 < x <= 1) (o_significance o) /\
              (one_each o (o_significance o) <-> aaugs a = [])
  end /\ 0 < o_accuracy o <= 1 /\
  o_accuracy o = bacc (inner o).
Proof.
  intros HM. pose proof (made_good b ps o HM) as (Hi & Hd). destruct (significance_range _ Hi) as (HL & HF).
  pose proof (basis_accuracy compute _ Hi) as ((Hs & _) & _ & _ & Ha & _).
  split; [|split; [destruct o; exact Ha|destruct o; reflexivity]].
  destruct o as [b'|a|d]; cbn [inner o_significance o_size] in *.
  - split; auto.
  - unfold one_each, naug. cbn [o_size]. unfold naug. split; [rewrite HL; lia|]. split; auto. rewrite HL. split.
    + intros (H & _). destruct (aaugs a); auto. cbn [length] in H. lia.
    + intros ->. split; auto.
  - split; [apply repeat_length|]. apply Forall_forall. intros x Hx. apply repeat_spec in Hx. lra.
Qed.

Lemma conditioning b ps o : made compute svd logistic b ps o ->
  (o_well o = true <-> match o with OFinite _ => True | OAug a => exists t, aaugs a = [MatsubaraConst t] | ODlr _ => False end).
Proof.
  intros _. destruct o; cbn [o_well].
  - split; auto.
  - apply aug_conditioned.
  - split; [discriminate|contradiction].
Qed.

(** The inner basis is a basis of the same expansion. *)
Lemma same_expansion b ps o : made compute svd logistic b ps o ->
  match o with
  | OFinite _ => o_kernel o = Ok (bkernel b) /\ o_sve o = Ok (bsve b)
  | _ => o_kernel o = Raise AttributeError /\ o_sve o = Raise AttributeError
  end.
Proof.
  intros (Hb & H). destruct (history_inv ps (OFinite b) o (conj Hb I) H) as (_ & _ & F2 & F3 & _). cbn [inner] in *.
  destruct o; cbn [o_kernel o_sve inner] in *; rewrite ?F2, ?F3; auto.
Qed.
End Access.

(** Examples. *)
From Verif.Proofs Require Import SVEPolicy.

Lemma access_example : exists b ps a, made no_compute (fun A => SVDRes (Mat (mr A) 0 (fun _ _ => RtoC 0)) [] (Mat 0 (mc A) (fun _ _ => RtoC 0))) true b ps (OAug a) /\
  ps = [Rescale 3; Augment [ACls CMatsubaraConst; ACls CTauConst]] /\ bbeta b = 2 /\ o_beta (OAug a) = 3 /\
  length (aaugs a) = 2%nat /\ (2 < o_size (OAug a))%nat.
Proof.
  destruct (ex_basis_stat "B") as (b & Hb & Hst & Hbe & Hsv & Hsz); auto.
  destruct (rescale_ok no_compute b (1 / 10) 3 Hb) as (b' & lam & Hr & Hb' & Hl & E1 & E2 & E3 & E4 & E5 & E6).
  { rewrite Hsv. reflexivity. } { lra. } { lra. }
  assert (Ea : augbasis_init b' [ACls CMatsubaraConst; ACls CTauConst] = Ok (AugBasis b' [MatsubaraConst 3; TauConst 3])).
  { unfold augbasis_init, aug_factory. cbn [map collect aug_create]. unfold aug_init, check_bosonic_statistics.
    rewrite E1, E3, Hst. cbn [String.eqb Ascii.eqb Bool.eqb bind]. rewrite (proj2 (Rleb_false 3 0)) by lra. reflexivity. }
  exists b, [Rescale 3; Augment [ACls CMatsubaraConst; ACls CTauConst]], (AugBasis b' [MatsubaraConst 3; TauConst 3]).
  split; [|repeat split; auto].
  - split; auto. cbn [history step]. rewrite Hr. cbn [bind history step]. rewrite Ea. reflexivity.
  - cbn [o_size naug aaugs length abasis]. pose proof (basis_accuracy no_compute b' Hb') as ((Hs & _) & _). unfold naug. cbn [aaugs length]. lia.
Qed.
