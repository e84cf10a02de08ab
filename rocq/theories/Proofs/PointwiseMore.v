(** Augmented bases and the discrete Lehmann representation, evaluated pointwise. *)
From Coq Require Import String ZArith Arith Bool Reals Lia Lra.
From Coquelicot Require Import Coquelicot.
From Coq Require Import List Sorted Permutation Classical.
From Verif.Model Require Import Base Util Num Poly FT SVE Basis Kernel Augment NDArray Sampling DLR.
From Verif.Spec Require Import SUtil SGauss SPoly SFT SBasis SKernel SAugment SSampling SDLR.
From Verif.Proofs Require Import BaseFacts SumFacts UtilFacts PPolyFacts FTFacts FTModel FTCall BasisFacts BasisInit BasisOps BasisPhys
  AugmentFacts AugmentProps NDFacts LstsqFacts SamplingFacts KernelFacts PointwiseFacts DLRFacts DLRProps SamplingProps.
Import ListNotations.
Open Scope R_scope.
Notation length := List.length.

Lemma nth_error_ext {A} (l l' : list A) : (forall n, nth_error l n = nth_error l' n) -> l = l'.
Proof.
  revert l'; induction l as [|a l IH]; intros [|b l'] H; auto; try (specialize (H 0%nat); discriminate).
  pose proof (H 0%nat) as E. injection E as ->. f_equal. apply IH. intros n. exact (H (S n)).
Qed.
Lemma seq_shift_n n L : seq n L = map (fun i => (n + i)%nat) (seq 0 L).
Proof.
  apply nth_ext with (d := 0%nat) (d' := 0%nat); [now rewrite map_length, !seq_length|]. intros i Hi. rewrite seq_length in Hi.
  rewrite seq_nth by assumption. symmetry. apply nth_error_nth_d. now apply (map_seq_error (fun i => (n + i)%nat)).
Qed.

(** The converse of [pointwise_of]. *)
Lemma pointwise_iff {P A} (d : A) (eval : list P -> res (list (list A))) L : pointwise d eval L ->
  forall ps M, eval ps = Ok M <->
    Forall (fun p => is_ok (eval [p])) ps /\ M = map (fun l => map (fun p => at_point d eval p l) ps) (seq 0 L).
Proof.
  intros H ps M. destruct (H ps) as [H1 H2].
  assert (K : forall M, eval ps = Ok M -> M = map (fun l => map (fun p => at_point d eval p l) ps) (seq 0 L)).
  { intros M' E. destruct (H2 M' E) as [Ln R]. apply nth_ext with (d := []) (d' := []).
    - now rewrite map_length, seq_length.
    - intros l Hl. destruct (nth_error M' l) as [row|] eqn:El; [|apply nth_error_None in El; lia].
      rewrite (nth_error_nth _ _ [] El). rewrite (R l row El). symmetry. apply nth_error_nth_d.
      rewrite map_seq_error by lia. reflexivity. }
  split.
  - intros E. split; [|now apply K]. apply Forall_forall. apply H1. now exists M.
  - intros [F ->]. rewrite Forall_forall in F. destruct (proj2 H1 F) as [M' E]. rewrite E. f_equal. now apply K.
Qed.

(** Several functions of one row each, followed by those of another evaluation. *)
Lemma pointwise_app {P F A} (d : A) (row : F -> list P -> res (list A)) (dom : F -> P -> Prop) (V : F -> P -> A) (fs : list F)
  (ev ev' : list P -> res (list (list A))) L :
  pointwise d ev L ->
  (forall f ps r, In f fs -> (row f ps = Ok r <-> Forall (dom f) ps /\ r = map (V f) ps)) ->
  (forall ps M, ev' ps = Ok M <-> exists R B, collect (map (fun f => row f ps) fs) = Ok R /\ ev ps = Ok B /\ M = R ++ B) ->
  pointwise d ev' (length fs + L).
Proof.
  intros H HR HE.
  assert (HC : forall ps R, collect (map (fun f => row f ps) fs) = Ok R <->
    Forall (fun p => forall f, In f fs -> dom f p) ps /\ R = map (fun f => map (V f) ps) fs).
  { clear HE H. induction fs as [|f fs IH]; intros ps R.
    - cbn [map collect]. split; [intros [= <-]; split; [apply Forall_forall; intros ? _ ? []|reflexivity]|intros [_ ->]; reflexivity].
    - specialize (IH (fun f' ps r I => HR f' ps r (or_intror I)) ps). cbn [map].
      assert (E : forall x (l : list (res (list A))), collect (x :: l) = do a <- x; do t <- collect l; Ok (a :: t)) by reflexivity.
      rewrite E. clear E. split.
      + destruct (row f ps) as [r|] eqn:Er; [|discriminate]. cbn [bind]. apply (HR f ps r) in Er; [|now left]. destruct Er as [F1 ->].
        destruct (collect _) as [t|]; [|discriminate]. cbn [bind]. destruct (proj1 (IH t) eq_refl) as [F2 ->].
        intros [= <-]. split; [|reflexivity]. rewrite Forall_forall in *. intros p I f' [<-|I']; auto.
      + intros [F1 ->]. rewrite Forall_forall in F1.
        rewrite (proj2 (HR f ps (map (V f) ps) (or_introl eq_refl))).
        2: { split; [|reflexivity]. apply Forall_forall. intros p I. apply F1; [exact I|now left]. }
        cbn [bind]. rewrite (proj2 (IH (map (fun f => map (V f) ps) fs))); [reflexivity|]. split; [|reflexivity].
        apply Forall_forall. intros p I f' I'. apply F1; [exact I|now right]. }
  refine (proj1 (pointwise_of d ev' _ (fun p => (forall f, In f fs -> dom f p) /\ is_ok (ev [p]))
    (fun l p => match nth_error fs l with Some f => V f p | None => at_point d ev p (l - length fs) end) _)).
  intros ps M. rewrite HE.
  assert (EM : map (fun l => map (fun p => match nth_error fs l with Some f => V f p | None => at_point d ev p (l - length fs) end) ps)
                 (seq 0 (length fs + L)) =
               map (fun f => map (V f) ps) fs ++ map (fun l => map (fun p => at_point d ev p l) ps) (seq 0 L)).
  { rewrite seq_app, map_app. f_equal.
    - clear. apply nth_error_ext. intros l. destruct (Nat.lt_ge_cases l (length fs)) as [Hl|Hl].
      + rewrite map_seq_error by assumption. destruct (nth_error fs l) as [f|] eqn:El; [|apply nth_error_None in El; lia].
        now rewrite (map_nth_error _ _ _ El).
      + transitivity (@None (list A)); [apply nth_error_None; rewrite map_length, seq_length; lia|].
        symmetry; apply nth_error_None; rewrite map_length; lia.
    - cbn [Nat.add]. rewrite (seq_shift_n (length fs) L). rewrite map_map. apply map_ext. intros l. apply map_ext. intros p.
      rewrite (proj2 (nth_error_None fs _)) by lia. f_equal. lia. }
  rewrite EM. split.
  - intros (R & B & E1 & E2 & ->). apply HC in E1. destruct E1 as [F1 ->]. apply (pointwise_iff _ _ _ H) in E2. destruct E2 as [F2 ->].
    split; [|reflexivity]. rewrite Forall_forall in *. intros p I. split; auto.
  - intros [FA ->]. eexists _, _. split; [apply HC; split; [|reflexivity]|split; [apply (pointwise_iff _ _ _ H); split; [|reflexivity]|reflexivity]].
    + eapply Forall_impl; [|exact FA]. intros p [Q _]. exact Q.
    + eapply Forall_impl; [|exact FA]. intros p [_ Q]. exact Q.
Qed.

(** ** Augmented bases *)
Lemma collect_xfin ts (f : R -> R) : collect (map xfin (map (fun t => Fin (f t)) ts)) = Ok (map (fun t => RtoC (f t)) ts).
Proof. apply collect_ok. rewrite map_map. induction ts; cbn; constructor; auto. Qed.

Definition aug_dom (f : aug) (t : R) : Prop := tau_aug f /\ 0 <= t <= aug_beta f.

Lemma aug_row f ps r : (do q <- aug_call f (FltArr (map Fin ps)); collect (map xfin q)) = Ok r <->
  Forall (aug_dom f) ps /\ r = map (fun t => RtoC (tau_fun f t)) ps.
Proof.
  destruct (classic (Forall (fun t => 0 <= t <= aug_beta f) ps)) as [F|F].
  - destruct (classic (tau_aug f)) as [T|T].
    + rewrite aug_call_ok by assumption. cbn [bind]. rewrite collect_xfin. split.
      * intros [= <-]. split; [|reflexivity]. eapply Forall_impl; [|exact F]. intros t Ht. now split.
      * intros [_ ->]. reflexivity.
    + destruct f as [b|b|b]; try (exfalso; apply T; exact I). rewrite aug_call_nan by exact F. cbn [bind].
      destruct ps as [|p ps]; [cbn; split; [intros [= <-]; auto|intros [_ ->]; reflexivity]|].
      cbn [map collect xfin bind]. split; [discriminate|]. intros [F' _]. inversion F'; subst. destruct H1 as [H1 _]. contradiction.
  - rewrite aug_call_raises; [|cbn [values_of]; rewrite inside_fins; exact F]. cbn [bind]. split; [discriminate|].
    intros [F' _]. exfalso. apply F. eapply Forall_impl; [|exact F']. intros t [_ H]. exact H.
Qed.

Lemma augu_pointwise compute npc a : built compute (abasis a) ->
  pointwise (RtoC 0) (sb_u (sb_of_aug npc a)) (augsize a).
Proof.
  intros Hb.
  apply (pointwise_app (RtoC 0) (fun f ps => do q <- aug_call f (FltArr (map Fin ps)); collect (map xfin q)) aug_dom
          (fun f t => RtoC (tau_fun f t)) (aaugs a) (sb_u (sb_of_basis (abasis a)))).
  - now apply (u_pointwise compute).
  - intros f ps r _. apply aug_row.
  - intros ps M. cbn [sb_of_aug sb_of_basis sb_u]. unfold augu_call. destruct (vcall_arr (bu (abasis a)) ps) as [B|]; cbn [bind].
    2: { split; [discriminate|]. intros (R & B & _ & E & _). discriminate. }
    assert (CB : forall B : list (list R), Forall2 (fun r q => collect (map xfin r) = Ok q) (map (map Fin) B) (map (map RtoC) B)).
    { induction B0 as [|row B0 IH]; cbn [map]; constructor; auto. exact (collect_xfin row (fun t => t)). }
    assert (FD : forall X Y Y', Forall2 (fun r q => @collect C (map xfin r) = Ok q) X Y -> Forall2 (fun r q => collect (map xfin r) = Ok q) X Y' -> Y = Y').
    { induction X as [|x X IH]; intros Y Y' H H'; inversion H; inversion H'; subst; [reflexivity|]. f_equal; [congruence|]. now apply IH. }
    split.
    + destruct (collect (map (fun f => aug_call f (FltArr (map Fin ps))) (aaugs a))) as [R|] eqn:ER; [|discriminate]. cbn [bind]. intros E.
      apply collect_ok in ER, E. rewrite map_app in E. apply Forall2_app_inv_l in E. destruct E as (Q1 & Q2 & F1 & F2 & ->).
      exists Q1, (map (map RtoC) B). split; [|split; [reflexivity|]].
      * apply collect_ok. clear F2. revert R Q1 ER F1. induction (aaugs a) as [|f fs IH]; intros R Q1 ER F1; cbn [map] in *; inversion ER; subst; inversion F1; subst; constructor.
        -- rewrite H1. cbn [bind]. assumption.
        -- eapply IH; eassumption.
      * f_equal. apply (FD (map (map Fin) B)); [|apply CB]. clear - F2. revert F2. generalize (map (map Fin) B). intros X. revert Q2.
        induction X; intros Q2 F; inversion F; subst; constructor; auto.
    + intros (Q1 & Q2 & E1 & [= <-] & ->). apply collect_ok in E1.
      assert (ER : exists R, Forall2 (fun x y => x = Ok y) (map (fun f => aug_call f (FltArr (map Fin ps))) (aaugs a)) R /\
                             Forall2 (fun r q => collect (map xfin r) = Ok q) R Q1).
      { revert Q1 E1. induction (aaugs a) as [|f fs IH]; intros Q1 E1; cbn [map] in *; inversion E1; subst.
        - exists []. split; constructor.
        - destruct (IH _ H3) as (R & R1 & R2). destruct (aug_call f _) as [r|] eqn:Er; [|discriminate]. cbn [bind] in H1.
          exists (r :: R). split; constructor; auto. }
      destruct ER as (R & R1 & R2). apply collect_ok in R1. rewrite R1. cbn [bind]. apply collect_ok. rewrite map_app.
      apply Forall2_app; [clear - R2|pose proof (CB B) as R3; clear - R3].
      * induction R2; cbn [map]; constructor; auto.
      * revert R3. generalize (map (map Fin) B), (map (map RtoC) B). intros X Y R3. induction R3; cbn [map]; constructor; auto.
Qed.

Definition hat_value (f : aug) (k : Z) : C :=
  match aug_hat true f false (IntArr [k]) with Ok [v] => v | _ => RtoC 0 end.
Lemma hat_row f ns r : aug_hat true f false (IntArr ns) = Ok r <->
  Forall (fun k => tau_aug f -> Z.even k = true) ns /\ r = map (hat_value f) ns.
Proof.
  destruct (classic (tau_aug f)) as [T|T].
  - destruct (classic (Forall (fun k => Z.even k = true) ns)) as [F|F].
    + assert (E : aug_hat true f false (IntArr ns) = Ok (map (hat_value f) ns)).
      { rewrite aug_hat_ok by assumption.
        assert (V' : forall k, In k ns -> hat_value f k = match f with TauConst b => if (k =? 0)%Z then RtoC (sqrt b) else RtoC 0
           | TauLinear b => let inv_w := PI / b * IZR k in let inv_w := if (k =? 0)%Z then inv_w else / inv_w in
                        Cmult (Cdiv (RtoC (sqrt (3 / b) * 2)) Ci) (RtoC inv_w) | MatsubaraConst b => RtoC 1 end).
        { intros k I. rewrite Forall_forall in F. unfold hat_value. rewrite aug_hat_ok by (constructor; [auto|constructor]).
          destruct f; reflexivity. }
        destruct f as [b|b|b]; try destruct T; cbn; f_equal; apply map_ext_in; intros k I; symmetry; now apply V'. }
      rewrite E. split; [intros [= <-]; split; [|reflexivity]|intros [_ ->]; reflexivity].
      apply Forall_forall. rewrite Forall_forall in F. auto.
    + rewrite aug_hat_odd by assumption. split; [discriminate|]. intros [F' _]. exfalso. apply F.
      eapply Forall_impl; [|exact F']. intros k H. now apply H.
  - destruct f as [b|b|b]; try (exfalso; apply T; exact I). rewrite aug_hat_const. split.
    + intros [= <-]. split; [apply Forall_forall; intros k _ []|]. apply map_ext. intros k. unfold hat_value. now rewrite aug_hat_const.
    + intros [_ ->]. reflexivity.
Qed.

Lemma auguhat_pointwise compute a : built compute (abasis a) ->
  pointwise (RtoC 0) (sb_uhat (sb_of_aug true a)) (augsize a).
Proof.
  intros Hb.
  apply (pointwise_app (RtoC 0) (fun f ns => aug_hat true f false (IntArr ns)) (fun f k => tau_aug f -> Z.even k = true)
          hat_value (aaugs a) (ft_call (buhat (abasis a)))).
  - now apply (uhat_pointwise compute).
  - intros f ps r _. apply hat_row.
  - intros ps M. cbn [sb_of_aug sb_uhat]. unfold auguhat_call. destruct (ft_call (buhat (abasis a)) ps) as [B|]; cbn [bind].
    2: { split; [discriminate|]. intros (R & B & _ & E & _). discriminate. }
    destruct (collect _) as [R|]; cbn [bind].
    2: { split; [discriminate|]. intros (R & B' & E & _). discriminate. }
    split; [intros [= <-]; eauto|]. intros (R' & B' & [= <-] & [= <-] & ->). reflexivity.
Qed.

(** ** Discrete Lehmann representation *)
Lemma dlru_pointwise compute svd f d : built compute (dl_basis d) -> dlr_built svd d -> tfun_ok f ->
  (exists w, In w (dl_poles d) /\ w <> 0) ->
  pointwise (RtoC 0) (sb_u (sb_of_dlr f d)) (length (dl_poles d)).
Proof.
  intros Hb Hd Hf (w & Iw & Nw). destruct (dlr_inv compute svd _ _ d Hb Hd) as (m & F & _ & _ & Eu & Hm & _).
  assert (Hm0 : m <> 0). { destruct Hm as [_ HF]. rewrite Forall_forall in HF. specialize (HF w Iw). cbv beta in HF.
    pose proof (Rabs_pos_lt w Nw). lra. }
  refine (proj1 (pointwise_of _ _ _ (fun t => 0 <= t <= bbeta (dl_basis d)) (fun l t => RtoC (pole_fun (bbeta (dl_basis d)) (nth l (dl_poles d) 0) t)) _)).
  intros ps M. cbn [sb_of_dlr sb_u]. rewrite Eu. pose proof (beta_pos compute _ Hb) as Pb.
  assert (FI : Forall (pole_dom (bbeta (dl_basis d))) (map Fin ps) <-> Forall (fun t => 0 <= t <= bbeta (dl_basis d)) ps).
  { rewrite Forall_map. split; intros H; (eapply Forall_impl; [|exact H]); cbv beta; intros t.
    - intros (r & E & Hr). injection E as <-. exact Hr.
    - intros Ht. exists t. auto. }
  assert (EV : map (map RtoC) (map (fun l => map (pole_at (bbeta (dl_basis d)) (nth l (dl_poles d) 0)) (map Fin ps)) (seq 0 (length (dl_poles d)))) =
    map (fun l => map (fun t => RtoC (pole_fun (bbeta (dl_basis d)) (nth l (dl_poles d) 0) t)) ps) (seq 0 (length (dl_poles d)))).
  { rewrite map_map. apply map_ext. intros l. rewrite !map_map. reflexivity. }
  split.
  - destruct (taupoles_call _ _ _) as [M'|] eqn:E; [|discriminate]. cbn [bind]. intros [= <-].
    apply tp_call_ok in E; auto. destruct E as [F1 ->]. split; [now apply FI|exact EV].
  - intros [F1 ->]. rewrite (proj2 (tp_call_ok _ _ _ _ f Pb Hm Hf Hm0 (map Fin ps) _) (conj (proj2 FI F1) eq_refl)). cbn [bind]. now rewrite EV.
Qed.

Lemma no_nan_row {P} (g : P -> option C) ps r : no_nan (map g ps) = Ok r <->
  Forall (fun p => g p <> None) ps /\ r = map (fun p => match g p with Some z => z | None => RtoC 0 end) ps.
Proof.
  revert r; induction ps as [|p ps IH]; intros r; cbn [map no_nan].
  - split; [intros [= <-]; auto|intros [_ ->]; reflexivity].
  - destruct (g p) as [z|] eqn:E; cbn [no_nan].
    + split.
      * destruct (no_nan _) as [t|]; [|discriminate]. cbn [bind]. intros [= <-]. destruct (proj1 (IH t) eq_refl) as [F ->].
        split; [constructor; congruence|reflexivity].
      * intros [F ->]. inversion F; subst. rewrite (proj2 (IH _) (conj H2 eq_refl)). reflexivity.
    + split; [discriminate|]. intros [F _]. inversion F; subst. congruence.
Qed.

Lemma pointwise_nil {P A} (d : A) : pointwise d (fun _ : list P => Ok []) 0.
Proof.
  intros ps. split; [split; intros _; [intros p _|]; eexists; reflexivity|]. intros M [= <-]. split; [reflexivity|].
  intros [|l] row E; discriminate.
Qed.

Lemma dlruhat_pointwise f d : pointwise (RtoC 0) (sb_uhat (sb_of_dlr f d)) (length (mp_poles (dl_uhat d))).
Proof.
  rewrite <- (Nat.add_0_r (length _)).
  set (g := fun w n => pole_value (String.eqb (mp_stat (dl_uhat d)) "F") (mp_beta (dl_uhat d)) w (IZR n)).
  apply (pointwise_app (RtoC 0) (fun w ns => no_nan (map (g w) ns)) (fun w n => g w n <> None)
          (fun w n => match g w n with Some z => z | None => RtoC 0 end) (mp_poles (dl_uhat d)) (fun _ => Ok [])).
  - apply pointwise_nil.
  - intros w ps r _. apply no_nan_row.
  - intros ps M. cbn [sb_of_dlr sb_uhat]. unfold matspoles_call. cbn [bind]. rewrite map_map.
    assert (E : map (fun w => no_nan (map (pole_value (mp_stat (dl_uhat d) =? "F")%string (mp_beta (dl_uhat d)) w) (map IZR ps))) (mp_poles (dl_uhat d)) =
                map (fun w => no_nan (map (g w) ps)) (mp_poles (dl_uhat d))).
    { apply map_ext. intros w. now rewrite map_map. }
    rewrite E. destruct (collect _) as [R|].
    + split; [intros [= <-]; exists R, []; now rewrite app_nil_r|]. intros (R' & B & [= <-] & [= <-] & ->). now rewrite app_nil_r.
    + split; [discriminate|]. intros (R' & B & E' & _). discriminate.
Qed.
