(** Augmented bases: C61-C63. *)
From Coq Require Import Reals ZArith Arith Bool Lra Lia String.
From Coquelicot Require Import Coquelicot.
From Coq Require Import List.
From Verif.Model Require Import Base Util Num Roots Poly FT SVE Basis Augment.
From Verif.Spec Require Import SUtil SPoly SFT SSVE SBasis SAugment.
From Verif.Proofs Require Import BaseFacts UtilFacts SumFacts IntFacts PPolyFacts FTFacts FTCall FTProps
  BasisFacts BasisInit BasisProps BasisOps BasisPhys AugmentFacts.
Import ListNotations.
Open Scope R_scope.
Notation length := List.length.

(** * Construction *)
Lemma aug_create_val c b : 0 < bbeta b ->
  aug_create c b =
  match c with
  | CMatsubaraConst => Ok (MatsubaraConst (bbeta b))
  | CTauConst => if String.eqb (bstat b) "B" then Ok (TauConst (bbeta b)) else Raise ValueError
  | CTauLinear => if String.eqb (bstat b) "B" then Ok (TauLinear (bbeta b)) else Raise ValueError
  end.
Proof.
  intros Hb. assert (E : Rleb (bbeta b) 0 = false) by (apply Rleb_false; lra).
  destruct c; unfold aug_create, aug_init, check_bosonic_statistics; rewrite E; try reflexivity;
    destruct (String.eqb (bstat b) "B"); reflexivity.
Qed.

Lemma factory_cases b args : 0 < bbeta b ->
  ((exists x, In x args /\ bosonic_class x) /\ bstat b <> "B"%string -> aug_factory b args = Raise ValueError) /\
  (~ ((exists x, In x args /\ bosonic_class x) /\ bstat b <> "B"%string) ->
   exists augs, aug_factory b args = Ok augs /\ length augs = length args /\
     Forall2 (fun x f => match x with AObj a => f = a | ACls c => aug_create c b = Ok f end) args augs).
Proof.
  intros Hb. unfold aug_factory. induction args as [|x args [IH1 IH2]].
  - split; [intros ((x & [] & _) & _)|]. intros _. exists []. repeat split. constructor.
  - cbn [map collect].
    set (r := match x with AObj a => Ok a | ACls c => aug_create c b end).
    assert (Hx : (bosonic_class x /\ bstat b <> "B"%string -> r = Raise ValueError) /\
                 (~ (bosonic_class x /\ bstat b <> "B"%string) -> exists f, r = Ok f)).
    { unfold r, bosonic_class. destruct x as [a|c].
      - split; [intros ([?|?] & _); discriminate|]. intros _. exists a. auto.
      - rewrite aug_create_val by auto. destruct (String.eqb_spec (bstat b) "B") as [E|E].
        + split; [intros (_ & H); contradiction|]. intros _. destruct c; eexists; reflexivity.
        + destruct c; (split; [intros ([H|H] & _); try discriminate; reflexivity|]); intros H.
          * exfalso. apply H. auto.
          * exfalso. apply H. auto.
          * eexists. reflexivity. }
    destruct Hx as [Hx1 Hx2]. split.
    + intros ((y & [->|Hy] & Hc) & Hs).
      * rewrite Hx1 by auto. reflexivity.
      * destruct r as [f|e] eqn:Er; cbn [bind].
        { rewrite IH1; [reflexivity|]. split; auto. exists y. auto. }
        { destruct (string_dec (bstat b) "B"); [contradiction|].
          unfold r in Er. destruct x as [a|c]; [discriminate|]. rewrite aug_create_val in Er by auto.
          destruct (String.eqb_spec (bstat b) "B"); [contradiction|]. destruct c; congruence. }
    + intros H. destruct Hx2 as [f Hf].
      { intros (Hc & Hs). apply H. split; auto. exists x. split; [left|]; auto. }
      destruct IH2 as (augs & E & Hl & F2).
      { intros ((y & Hy & Hc) & Hs). apply H. split; auto. exists y. split; [right|]; auto. }
      rewrite Hf. cbn [bind]. rewrite E. cbn [bind]. exists (f :: augs). split; auto. split; [cbn; lia|].
      constructor; auto. unfold r in Hf. destruct x; congruence.
Qed.

Lemma init_cases b args : 0 < bbeta b ->
  ((exists x, In x args /\ bosonic_class x) /\ bstat b <> "B"%string -> augbasis_init b args = Raise ValueError) /\
  (~ ((exists x, In x args /\ bosonic_class x) /\ bstat b <> "B"%string) ->
   exists a, augbasis_init b args = Ok a /\ abasis a = b /\
     Forall2 (fun x f => match x with AObj o => f = o | ACls c => aug_create c b = Ok f end) args (aaugs a)).
Proof.
  intros Hb. destruct (factory_cases b args Hb) as [H1 H2]. unfold augbasis_init. split.
  - intros H. rewrite H1 by auto. reflexivity.
  - intros H. destruct (H2 H) as (augs & E & _ & F2). rewrite E. cbn [bind]. eexists. split; [reflexivity|]. auto.
Qed.

Lemma init_objects b augs : augbasis_init b (map AObj augs) = Ok (AugBasis b augs).
Proof.
  unfold augbasis_init, aug_factory. assert (E : collect (map (fun x => match x with AObj a => Ok a | ACls c => aug_create c b end) (map AObj augs)) = Ok augs).
  { apply collect_ok. rewrite map_map. induction augs; simpl; constructor; auto. }
  rewrite E. reflexivity.
Qed.

(** * Evaluation *)
Lemma collect_raise {A} (l : list (res A)) e : (forall r, In r l -> exists a, r = Ok a \/ r = Raise e) ->
  (exists r, In r l /\ r = Raise e) -> collect l = Raise e.
Proof.
  induction l as [|r l IH]; intros H (r0 & Hin & E); [destruct Hin|]. cbn [collect].
  destruct r as [a|e']; cbn [bind].
  - destruct Hin as [E0|Hin]; [congruence|]. rewrite IH; [reflexivity| |].
    + intros r' Hr'. apply H. right. auto.
    + exists r0. auto.
  - destruct (H (Raise e') (or_introl eq_refl)) as (a & [Ha|Ha]); [discriminate|]. injection Ha as ->. reflexivity.
Qed.

Section Inner.
Variable compute : kern -> option R -> res sve_result.
Variable b : basis.
Hypothesis Hb : built compute b.

Lemma bu_fresh : geom_ok (vgeom (bu b)) /\ (0 < glen (vgeom (bu b)))%nat /\ length (vcols (bu b)) = bsize b.
Proof.
  rewrite (bu_eq compute b Hb). cbn [vgeom vcols]. destruct (ok_r compute b Hb) as ((Hg & Ho & Hl) & _ & _ & _ & _ & _ & Lu & _).
  pose proof (beta_pos compute b Hb). pose proof (size_le compute b Hb).
  split; [apply scaled_ok; auto; lra|]. split; [cbn [scaled_geom glen]; lia|]. rewrite firstn_length. lia.
Qed.

Lemma buhat_shape : exists q ms, even_odd (bstat b) = Ok q /\ ffreq (buhat b) = q /\
  geom_ok (fgeom (buhat b)) /\ (0 < gorder (fgeom (buhat b)))%nat /\ glen (fgeom (buhat b)) = gorder (fgeom (buhat b)) /\
  gxmin (fgeom (buhat b)) = -1 /\ gxmax (fgeom (buhat b)) = 1 /\
  length (fcols (buhat b)) = bsize b /\ fmodel (buhat b) = Some ms /\ length ms = bsize b /\ fasymp (buhat b) <> None.
Proof.
  destruct (built_inv compute b Hb) as (lam & q & f & f' & _ & _ & Hok & _ & _ & _ & Hq & Hs & Hf & Hf' & E).
  destruct Hok as (Hfr & _ & _ & _ & _ & _ & Lu & _). pose proof (full_fresh (bsve b) (bbeta b) Hfr) as Hff.
  destruct (ft_init_slice _ _ _ _ (Z.of_nat (bsize b)) _ Hf (even_odd_any _ _ Hq) Hff) as (f2 & E2 & G2 & K2 & Q2 & A2 & M2).
  assert (f2 = f') by congruence. subst f2.
  pose proof (ft_init_val _ _ _ _ _ Hf) as (G & K & Q & X1 & X2 & A & Mo & Hpm).
  assert (Eb : buhat b = f') by (rewrite E; reflexivity). rewrite Eb. destruct Hff as (Hg & Ho & Hl).
  assert (Lc : length (vcols (full_u (bsve b) (bbeta b))) = length (ss (bsve b))).
  { unfold full_u, scaled_cols. cbn [vcols]. rewrite map_length. auto. }
  destruct (power_model q (full_u (bsve b) (bbeta b))) as [m|e] eqn:Em.
  2:{ destruct (Hpm ltac:(discriminate) eq_refl) as (m & Hm). congruence. }
  exists q, (slice_to (Z.of_nat (bsize b)) m).
  assert (Lm : length m = length (ss (bsve b))).
  { rewrite <- Lc. apply (model_length _ _ _ _ _ (conj Hg (conj Ho Hl)) Hf). exact Mo. }
  assert (Hsl : forall A (l : list A), length l = length (ss (bsve b)) -> length (slice_to (Z.of_nat (bsize b)) l) = bsize b).
  { intros T l HL. unfold slice_to. destruct (Z.ltb_spec (Z.of_nat (bsize b)) 0); [lia|]. rewrite Nat2Z.id, firstn_length. lia. }
  repeat match goal with |- _ /\ _ => split end; auto; try congruence.
  - rewrite K2. apply Hsl. auto.
  - rewrite M2, Mo by (rewrite A; discriminate). reflexivity.
Qed.

Lemma ft_item_rows f l ms : geom_ok (fgeom f) -> (0 < gorder (fgeom f))%nat -> glen (fgeom f) = gorder (fgeom f) ->
  gxmin (fgeom f) = -1 -> gxmax (fgeom f) = 1 -> fmodel f = Some ms -> length ms = length (fcols f) ->
  (l < length (fcols f))%nat ->
  exists f', ft_item f (Z.of_nat l) = Ok f' /\
    forall ns M, ft_call f ns = Ok M -> exists row, nth_error M l = Some row /\ ft_call f' ns = Ok [row].
Proof.
  intros Hg Ho Hl X1 X2 Em Lm Hlt.
  destruct (nth_error (fcols f) l) as [c|] eqn:Ec; [|apply nth_error_None in Ec; lia].
  destruct (nth_error ms l) as [m|] eqn:Ems; [|apply nth_error_None in Ems; lia].
  exists (FT (fgeom f) [c] (ffreq f) (fasymp f) (Some [m])). split.
  - unfold ft_item. rewrite (BasisPhys.pyindex_nat (fcols f)), Ec, Em, (BasisPhys.pyindex_nat ms), Ems. unfold ft_init. cbn [vgeom vcols].
    rewrite X1, X2. unfold Reqb. destruct (Req_EM_T (-1) (-1)); [|lra]. destruct (Req_EM_T 1 1); [|lra]. cbn [negb orb].
    destruct (fasymp f); reflexivity.
  - intros ns M HM.
    assert (HF : Forall (freq_ok (ffreq f)) ns).
    { destruct (Forall_dec (freq_ok (ffreq f)) (fun z => ltac:(unfold freq_ok; destruct (ffreq f); [left; exact I|apply bool_dec|apply bool_dec])) ns) as [HF|HF]; auto.
      rewrite (ft_call_freq _ _ HF) in HM. discriminate. }
    rewrite ft_call_ok in HM by (auto; apply (g_nseg _ Hg)). injection HM as <-.
    exists (map (ft_value f l c) ns). split.
    + unfold ft_rows. rewrite nth_error_map, nth_error_combine_seq, Ec. reflexivity.
    + rewrite ft_call_ok; cbn [fgeom ffreq]; auto; [|apply (g_nseg _ Hg)]. f_equal.
      unfold ft_rows. cbn [fcols length seq combine map fst snd]. f_equal. apply map_ext. intros n.
      unfold ft_value, use_asymp. cbn [fasymp fgeom]. destruct (fasymp f) as [x|]; auto.
      destruct (Rleb x (Rabs (IZR n))); auto. f_equal. unfold ft_moments. cbn [fmodel]. rewrite Em.
      rewrite (nth_error_nth _ _ _ Ems). reflexivity.
Qed.

(** C61, imaginary time: success and rows. *)
Lemma aug_call_cases f xs :
  (Forall (fun t => 0 <= t <= aug_beta f) xs -> exists row, aug_call f (FltArr (map Fin xs)) = Ok row) /\
  (~ Forall (fun t => 0 <= t <= aug_beta f) xs -> aug_call f (FltArr (map Fin xs)) = Raise ValueError).
Proof.
  split.
  - intros H. destruct f as [x|x|x].
    + eexists. apply (aug_call_ok (TauConst x)); [exact I|auto].
    + eexists. apply (aug_call_ok (TauLinear x)); [exact I|auto].
    + eexists. apply aug_call_nan. auto.
  - intros H. apply aug_call_raises. cbn [values_of]. rewrite inside_fins. auto.
Qed.

Lemma collect_map_ok {A B} (f : A -> res B) l : (forall x, In x l -> is_ok (f x)) -> is_ok (collect (map f l)).
Proof.
  induction l as [|x l IH]; intros H; [exists []; reflexivity|]. cbn [map collect].
  destruct (H x (or_introl eq_refl)) as [y Hy]. destruct IH as [ys Hys]; [intros z Hz; apply H; right; auto|].
  exists (y :: ys). rewrite Hy. cbn [bind]. rewrite Hys. reflexivity.
Qed.

Lemma collect_map_nth {A B} (f : A -> res B) l r : collect (map f l) = Ok r ->
  length r = length l /\ forall i x, nth_error l i = Some x -> exists y, f x = Ok y /\ nth_error r i = Some y.
Proof.
  intros H. apply collect_ok in H. revert r H. induction l as [|x l IH]; intros r H; inversion H; subst; cbn [map length].
  - split; auto. intros i x Hx. destruct i; discriminate.
  - destruct (IH _ H4) as [HL HI]. split; [lia|]. intros i z Hz. destruct i; cbn [nth_error] in *.
    + injection Hz as <-. eexists. eauto.
    + apply HI. auto.
Qed.

Variable augs : list aug.
Let a := AugBasis b augs.

Lemma augu_success xs :
  (Forall (fun t => 0 <= t <= bbeta b) xs /\ (forall f, In f augs -> Forall (fun t => 0 <= t <= aug_beta f) xs) ->
     is_ok (augu_call a xs)) /\
  (~ (Forall (fun t => 0 <= t <= bbeta b) xs /\ (forall f, In f augs -> Forall (fun t => 0 <= t <= aug_beta f) xs)) ->
     augu_call a xs = Raise ValueError).
Proof.
  destruct bu_fresh as (Hg & Hl & Hsz). destruct (bu_range compute b Hb) as [R0 R1].
  assert (Hin : forall b0, Forall (fun t => 0 <= t <= b0) xs \/ ~ Forall (fun t => 0 <= t <= b0) xs).
  { intros b0. destruct (Forall_dec (fun t => 0 <= t <= b0)
      (fun t => ltac:(destruct (Rle_dec 0 t); [destruct (Rle_dec t b0); [left; lra|right; lra]|right; lra])) xs); auto. }
  unfold augu_call. cbn [abasis aaugs a].
  destruct (Hin (bbeta b)) as [H0|H0].
  2:{ split; [intros [H _]; contradiction|]. intros _. rewrite vcall_arr_raises by (auto; rewrite R0, R1; auto). reflexivity. }
  assert (EV : vcall_arr (bu b) xs = Ok (map (fun c => map (cval (vgeom (bu b)) c) xs) (vcols (bu b)))).
  { apply (vcall_arr_ok (bu b) xs _ Hg Hl). split; [rewrite R0, R1; auto|reflexivity]. }
  rewrite EV.
  cbn [bind]. split.
  - intros [_ H]. destruct (collect_map_ok (fun f => aug_call f (FltArr (map Fin xs))) augs) as [r Hr].
    { intros f Hf. apply (proj1 (aug_call_cases f xs)). auto. }
    rewrite Hr. eexists. reflexivity.
  - intros H. rewrite (collect_raise _ ValueError); [reflexivity| |].
    + intros r Hr. apply in_map_iff in Hr. destruct Hr as (f & <- & Hf). destruct (Hin (aug_beta f)) as [Hi|Hi].
      * destruct (proj1 (aug_call_cases f xs) Hi) as [row Hrow]. exists row. auto.
      * exists []. right. apply (proj2 (aug_call_cases f xs)). auto.
    + apply Classical_Prop.NNPP. intros Hno. apply H. split; auto. intros f Hf. destruct (Hin (aug_beta f)); auto.
      exfalso. apply Hno. exists (aug_call f (FltArr (map Fin xs))). split; [apply in_map_iff; eauto|].
      apply (proj2 (aug_call_cases f xs)). auto.
Qed.

Lemma augu_rows xs M l : augu_call a xs = Ok M -> length M = augsize a /\
  ((l < augsize a)%nat -> exists it row, augu_item a (Z.of_nat l) = Ok it /\ item_values it xs = Ok row /\
     nth_error M l = Some row /\ from_parts augs (map (SPoly (vgeom (bu b))) (vcols (bu b))) l it).
Proof.
  destruct bu_fresh as (Hg & Hl & Hsz). unfold augu_call. cbn [abasis aaugs a]. intros H.
  destruct (vcall_arr (bu b) xs) as [M0|e] eqn:EV; [|discriminate]. cbn [bind] in H.
  destruct (collect (map (fun f => aug_call f (FltArr (map Fin xs))) augs)) as [r|e] eqn:EC; [|discriminate]. cbn [bind] in H.
  injection H as <-. apply (vcall_arr_ok _ _ _ Hg Hl) in EV. destruct EV as [Hin ->].
  destruct (collect_map_nth _ _ _ EC) as [HL HI].
  split.
  { rewrite app_length, !map_length. unfold augsize, naug. cbn [aaugs abasis a]. lia. }
  intros Hlt. unfold augu_item, augsize, naug in *. cbn [aaugs abasis a] in *.
  destruct (Z.ltb_spec (Z.of_nat l) (Z.of_nat (length augs))) as [Hc|Hc].
  - rewrite BasisPhys.pyindex_nat. destruct (nth_error augs l) as [f|] eqn:Ef; [|apply nth_error_None in Ef; lia].
    destruct (HI l f Ef) as (row & Hrow & Hn). exists (inl f), row. repeat split; auto.
    rewrite nth_error_app1 by lia. auto.
  - replace (Z.of_nat l - Z.of_nat (length augs))%Z with (Z.of_nat (l - length augs)) by lia.
    unfold getitem. rewrite BasisPhys.pyindex_nat.
    destruct (nth_error (vcols (bu b)) (l - length augs)) as [c|] eqn:Ec; [|apply nth_error_None in Ec; lia].
    cbn [bind]. exists (inr (SPoly (vgeom (bu b)) c)), (map Fin (map (cval (vgeom (bu b)) c) xs)).
    split; auto. split; [|split].
    + unfold item_values. replace (collect (map (scall (SPoly (vgeom (bu b)) c)) xs)) with (Ok (map (cval (vgeom (bu b)) c) xs)); [reflexivity|].
      symmetry. apply collect_ok. clear - Hin Hg Hl. induction Hin; simpl; constructor; auto. apply scall_ok; auto.
    + rewrite nth_error_app2, HL by lia. rewrite nth_error_map, nth_error_map, Ec. reflexivity.
    + cbn [from_parts]. split; [lia|]. rewrite nth_error_map, Ec. reflexivity.
Qed.

Lemma augu_negative j : (0 < j)%nat ->
  ((j <= length augs)%nat -> exists f, augu_item a (- Z.of_nat j) = Ok (inl f) /\ nth_error augs (length augs - j) = Some f) /\
  ((length augs < j)%nat -> augu_item a (- Z.of_nat j) = Raise IndexError).
Proof.
  intros Hj. unfold augu_item, naug. cbn [aaugs a]. destruct (Z.ltb_spec (- Z.of_nat j) (Z.of_nat (length augs))); [|lia].
  unfold pyindex. split; intros Hle.
  - replace ((- Z.of_nat (length augs) <=? - Z.of_nat j)%Z) with true by (symmetry; apply Z.leb_le; lia).
    replace ((- Z.of_nat j <? Z.of_nat (length augs))%Z) with true by (symmetry; apply Z.ltb_lt; lia).
    replace ((- Z.of_nat j <? 0)%Z) with true by (symmetry; apply Z.ltb_lt; lia). cbn [andb].
    replace (Z.to_nat (- Z.of_nat j + Z.of_nat (length augs))) with (length augs - j)%nat by lia.
    destruct (nth_error augs (length augs - j)) as [f|] eqn:E; [|apply nth_error_None in E; lia]. exists f. auto.
  - replace ((- Z.of_nat (length augs) <=? - Z.of_nat j)%Z) with false by (symmetry; apply Z.leb_gt; lia). reflexivity.
Qed.

(** Matsubara frequencies. *)
Lemma auguhat_rows npc sc ns M l : auguhat_call npc a sc ns = Ok M -> length M = augsize a /\
  ((l < augsize a)%nat -> exists it row, auguhat_item a (Z.of_nat l) = Ok it /\ hat_values npc sc it ns = Ok row /\
     nth_error M l = Some row /\
     match it with inl f => nth_error augs l = Some f
                 | inr p => (length augs <= l)%nat /\ ft_item (buhat b) (Z.of_nat (l - length augs)) = Ok p end).
Proof.
  destruct buhat_shape as (q & ms & Hq & Fq & Hg & Ho & Hl & X1 & X2 & Lc & Em & Lm & Ha).
  unfold auguhat_call. cbn [abasis aaugs a]. intros H.
  destruct (ft_call (buhat b) ns) as [M0|e] eqn:EV; [|discriminate]. cbn [bind] in H.
  destruct (collect (map (fun f => aug_hat npc f sc (IntArr ns)) augs)) as [r|e] eqn:EC; [|discriminate]. cbn [bind] in H.
  injection H as <-. destruct (collect_map_nth _ _ _ EC) as [HL HI].
  assert (L0 : length M0 = bsize b).
  { assert (HF : Forall (freq_ok (ffreq (buhat b))) ns).
    { destruct (Forall_dec (freq_ok (ffreq (buhat b))) (fun z => ltac:(unfold freq_ok; destruct (ffreq (buhat b)); [left; exact I|apply bool_dec|apply bool_dec])) ns) as [HF|HF]; auto.
      rewrite (ft_call_freq _ _ HF) in EV. discriminate. }
    rewrite ft_call_ok in EV by (auto; apply (g_nseg _ Hg)). injection EV as <-. unfold ft_rows.
    rewrite map_length, combine_length, seq_length. lia. }
  split.
  { rewrite app_length. unfold augsize, naug. cbn [aaugs abasis a]. lia. }
  intros Hlt. unfold auguhat_item, augsize, naug in *. cbn [aaugs abasis a] in *.
  destruct (Z.ltb_spec (Z.of_nat l) (Z.of_nat (length augs))) as [Hc|Hc].
  - rewrite BasisPhys.pyindex_nat. destruct (nth_error augs l) as [f|] eqn:Ef; [|apply nth_error_None in Ef; lia].
    destruct (HI l f Ef) as (row & Hrow & Hn). exists (inl f), row. repeat split; auto.
    rewrite nth_error_app1 by lia. auto.
  - replace (Z.of_nat l - Z.of_nat (length augs))%Z with (Z.of_nat (l - length augs)) by lia.
    destruct (ft_item_rows (buhat b) (l - length augs) ms Hg Ho Hl X1 X2 Em ltac:(lia) ltac:(lia)) as (f' & Ef' & Hrow).
    destruct (Hrow ns M0 EV) as (row & Hr1 & Hr2). rewrite Ef'. cbn [bind]. exists (inr f'), row.
    split; auto. split; [|split].
    + unfold hat_values. rewrite Hr2. reflexivity.
    + rewrite nth_error_app2, HL by lia. auto.
    + split; [lia|]. auto.
Qed.

(** C62: evaluation at an odd frequency raises. *)
Lemma odd_raises npc sc ns : (exists f, In f augs /\ tau_aug f) -> ~ Forall (fun k => Z.even k = true) ns ->
  auguhat_call npc a sc ns = Raise ValueError.
Proof.
  intros (f0 & Hin & Ht) Hodd. unfold auguhat_call. cbn [abasis aaugs a].
  destruct (ft_call (buhat b) ns) as [M0|e] eqn:EV; cbn [bind].
  - rewrite (collect_raise _ ValueError); [reflexivity| |].
    + intros r Hr. apply in_map_iff in Hr. destruct Hr as (f & <- & Hf).
      destruct f as [x|x|x]; [exists []; right|exists []; right|eexists; left; reflexivity]; apply aug_hat_odd; auto; exact I.
    + exists (aug_hat npc f0 sc (IntArr ns)). split; [apply in_map_iff; eauto|]. apply aug_hat_odd; auto.
  - destruct buhat_shape as (q & ms & Hq & Fq & Hg & Ho & Hl & X1 & X2 & Lc & Em & Lm & Ha).
    destruct (Forall_dec (freq_ok (ffreq (buhat b))) (fun z => ltac:(unfold freq_ok; destruct (ffreq (buhat b)); [left; exact I|apply bool_dec|apply bool_dec])) ns) as [HF|HF].
    + rewrite ft_call_ok in EV by (auto; apply (g_nseg _ Hg)). discriminate.
    + rewrite (ft_call_freq _ _ HF) in EV. congruence.
Qed.

Lemma fermion_raises npc sc ns : bstat b = "F"%string -> (exists f, In f augs /\ tau_aug f) -> ns <> [] ->
  auguhat_call npc a sc ns = Raise ValueError.
Proof.
  intros Hst Hex Hne. destruct buhat_shape as (q & ms & Hq & Fq & _). rewrite Hst in Hq. cbn in Hq. injection Hq as <-.
  destruct (Forall_dec (fun k => Z.even k = false) (fun k => bool_dec (Z.even k) false) ns) as [HF|HF].
  - apply odd_raises; auto. intros H. destruct ns as [|k ns]; [congruence|]. inversion HF; inversion H; congruence.
  - unfold auguhat_call. cbn [abasis aaugs a]. rewrite ft_call_freq; [reflexivity|]. rewrite Fq. exact HF.
Qed.

(** C61: slicing. *)
Lemma aug_slicing e z : seps (bsve b) = Some e -> e <= 1 ->
  (forall i, i = AIdxSlice None (Some z) None \/ i = AIdxSlice (Some 0%Z) (Some z) None \/ i = AIdxSlice None (Some z) (Some 1%Z) \/
             i = AIdxSlice (Some 0%Z) (Some z) (Some 1%Z) ->
   ((z <= Z.of_nat (length augs))%Z -> augbasis_getitem compute a i = Raise ValueError) /\
   ((Z.of_nat (length augs) < z)%Z ->
    let n := Nat.min (Z.to_nat z - length augs) (nabove e (ss (bsve b))) in
    exists a', augbasis_getitem compute a i = Ok a' /\ aaugs a' = augs /\ built compute (abasis a') /\
      same_setting b (abasis a') /\ augsize a' = (length augs + n)%nat /\
      ((n <= bsize b)%nat -> first_of n b (abasis a')) /\ ((bsize b <= n)%nat -> first_of (bsize b) (abasis a') b))).
Proof.
  intros He He1 i Hi.
  assert (E : aug_slice_to_size i = Ok z) by (destruct Hi as [->|[->|[->| ->]]]; reflexivity).
  unfold augbasis_getitem. rewrite E. cbn [bind]. unfold naug. cbn [aaugs abasis a]. split; intros Hz.
  - destruct (Z.leb_spec z (Z.of_nat (length augs))); [reflexivity|lia].
  - destruct (Z.leb_spec z (Z.of_nat (length augs))); [lia|].
    destruct (slice_size compute b e (IdxSlice None (Some (PyInt (z - Z.of_nat (length augs)))) None)
      (Some (PyInt (z - Z.of_nat (length augs)))) Hb He He1) as (b' & Eb' & Hb' & Hs & Hss & H1 & H2).
    { exists None, None. auto. }
    { right. exists (z - Z.of_nat (length augs))%Z. split; auto. lia. }
    cbv zeta in *. replace (Z.to_nat (z - Z.of_nat (length augs))) with (Z.to_nat z - length augs)%nat in * by lia.
    rewrite Eb'. cbn [bind]. rewrite init_objects. exists (AugBasis b' augs). cbn [aaugs abasis].
    unfold augsize, naug. cbn [aaugs abasis]. rewrite Hs. repeat match goal with |- _ /\ _ => split end; auto.
Qed.

Lemma aug_slicing_errors :
  augbasis_getitem compute a (AIdxSlice None None None) = Raise TypeError /\
  (forall z, augbasis_getitem compute a (AIdxInt z) = Raise ValueError) /\
  (forall start stop step, (exists s, start = Some s /\ s <> 0%Z) \/ (exists s, step = Some s /\ s <> 1%Z) ->
     augbasis_getitem compute a (AIdxSlice start stop step) = Raise ValueError).
Proof.
  split; [reflexivity|]. split; [reflexivity|]. intros start stop step H. unfold augbasis_getitem, aug_slice_to_size, slice_to_size.
  destruct start as [s|].
  - destruct (Z.eqb_spec s 0); [|reflexivity]. cbn [negb]. subst s.
    destruct H as [(s & E & Hs)|(s & -> & Hs)]; [congruence|]. destruct (Z.eqb_spec s 1); [contradiction|]. reflexivity.
  - destruct H as [(s & E & Hs)|(s & -> & Hs)]; [discriminate|]. destruct (Z.eqb_spec s 1); [contradiction|]. reflexivity.
Qed.

Lemma augu_slicing z : 
  ((z <= Z.of_nat (length augs))%Z -> augu_slice a (AIdxSlice None (Some z) None) = Raise NotImplementedError) /\
  ((Z.of_nat (length augs) < z)%Z ->
   augu_slice a (AIdxSlice None (Some z) None) = Ok (augs, take (Z.to_nat z - length augs) (bu b))) /\
  augu_slice a (AIdxSlice None None None) = Raise TypeError.
Proof.
  unfold augu_slice, naug, take, getslice, slice_to. cbn [aug_slice_to_size slice_to_size bind aaugs abasis a option_map].
  destruct (Z.leb_spec z (Z.of_nat (length augs))); repeat split; intros; try lia; try reflexivity.
  destruct (Z.ltb_spec (z - Z.of_nat (length augs)) 0); [lia|]. do 4 f_equal. lia.
Qed.

(** C63 *)
Lemma accessors n :
  aug_statistics a = Raise TypeError /\ augu_xmin a = 0 /\ augu_xmax a = 0 /\ 0 < bbeta b /\
  augu_deriv a n = Raise TypeError.
Proof.
  destruct (bu_range compute b Hb) as [R0 R1]. repeat match goal with |- _ /\ _ => split end; auto.
  - apply (beta_pos compute b Hb).
  - unfold augu_deriv. cbn [aaugs a]. destruct augs as [|f [|g l]]; reflexivity.
Qed.
End Inner.

(** C58 for augmented bases. *)
Lemma aug_conditioned a : aug_well_conditioned a = true <-> exists beta, aaugs a = [MatsubaraConst beta].
Proof.
  unfold aug_well_conditioned, basis_well_conditioned. cbn [andb]. destruct (aaugs a) as [|f [|g l]].
  - split; [discriminate|intros (x & H); discriminate].
  - destruct f; split; try discriminate; try (intros (x & H); discriminate); intros _; eexists; reflexivity.
  - destruct f; split; try discriminate; intros (x & H); discriminate.
Qed.

Lemma u_layout compute b : built compute b -> forall args a, augbasis_init b args = Ok a ->
  augsize a = (length args + bsize b)%nat /\
  forall xs M l, augu_call a xs = Ok M -> length M = augsize a /\
  ((l < augsize a)%nat -> exists it row, augu_item a (Z.of_nat l) = Ok it /\ item_values it xs = Ok row /\
     nth_error M l = Some row /\ from_parts (aaugs a) (map (SPoly (vgeom (bu b))) (vcols (bu b))) l it).
Proof.
  intros Hb args a Ha. unfold augbasis_init in Ha. destruct (aug_factory b args) as [augs|] eqn:E; [|discriminate].
  cbn [bind] in Ha. injection Ha as <-. split.
  - unfold aug_factory in E. apply collect_map_nth in E. unfold augsize, naug. cbn [aaugs abasis]. lia.
  - intros xs M l HM. apply (augu_rows compute b Hb augs). auto.
Qed.

(** Examples. *)
From Verif.Proofs Require Import SVEPolicy.
Lemma ex_basis_stat st : st = "F"%string \/ st = "B"%string -> exists b, built no_compute b /\ bstat b = st /\ bbeta b = 2 /\ bsve b = ex_sve (1 / 10) /\ bsize b = 2%nat.
Proof.
  intros Hst. destruct (init_accepts no_compute st 2 3 (Some (1 / 10)) None None (ex_sve (1 / 10)) (1 / 10)) as (b & H1 & H2 & H3 & H4 & H5 & H6 & H7 & H8);
    auto; try lra; [apply ex_sve_ok|]. exists b. rewrite H8. split; auto. cbn [ex_sve ss]. rewrite (proj1 (ex_nabove _)) by lra.
  repeat split; auto.
Qed.
