(** C27-C30: statements about PiecewiseLegendreFT objects. *)
From Coq Require Import Reals ZArith Arith Bool Lra Lia Psatz.
From Coquelicot Require Import Coquelicot.
From Coq Require Import List Sorting.Sorted.
From Verif.Model Require Import Base Util Num Poly FT.
From Verif.Spec Require Import SPoly SFT.
From Verif.Proofs Require Import BaseFacts SumFacts IntFacts LegFacts PPolyFacts PPolyInt PPolyExamples FTFacts FTModel FTCall.
Import ListNotations.
Open Scope R_scope.
Arguments legP : simpl never.

Lemma ft_fourier p q a mo f ns M l c j n : fresh p -> ft_init p q a mo = Ok f -> ft_call f ns = Ok M ->
  nth_error (vcols p) l = Some c -> nth_error ns j = Some n ->
  (forall x, a = AsympAt x -> Rabs (IZR n) < x) ->
  exists v, entry M l j = Some v /\
    is_fourier (fun x => PI * IZR n * (x + 1) / 2) (cval (vgeom p) c) (-1) 1 (Cmult (RtoC (sqrt 2)) v).
Proof.
  intros (Hg & Ho & Hl) Hi Hc E1 E2 Ha. apply ft_init_val in Hi. destruct Hi as (G & K & Q & X1 & X2 & A & Mo & _).
  destruct (Forall_dec (freq_ok (ffreq f)) (fun z => ltac:(unfold freq_ok; destruct (ffreq f); [left; exact I|apply bool_dec|apply bool_dec])) ns) as [HF|HF].
  2:{ rewrite ft_call_freq in Hc by auto. discriminate. }
  rewrite ft_call_ok in Hc by (rewrite ?G; auto; apply (g_nseg _ Hg)). injection Hc as <-.
  exists (ft_value f l c n). split; [apply ft_rows_entry; [rewrite K|]; auto|].
  unfold ft_value, use_asymp. rewrite A. destruct a as [| |x].
  - rewrite G. apply unl_fourier; auto.
  - rewrite G. apply unl_fourier; auto.
  - specialize (Ha x eq_refl). unfold Rleb. destruct (Rle_dec x (Rabs (IZR n))); [lra|]. rewrite G. apply unl_fourier; auto.
Qed.

Lemma ft_call_iff p q a mo f ns : fresh p -> ft_init p q a mo = Ok f ->
  (Forall (freq_ok q) ns -> exists M, ft_call f ns = Ok M /\ length M = length (vcols p) /\ Forall (fun row => length row = length ns) M) /\
  (~ Forall (freq_ok q) ns -> ft_call f ns = Raise ValueError).
Proof.
  intros (Hg & Ho & Hl) Hi. apply ft_init_val in Hi. destruct Hi as (G & K & Q & X1 & X2 & A & Mo & _). rewrite <- Q.
  split; [|apply ft_call_freq].
  intros HF. exists (ft_rows f ns). split; [apply ft_call_ok; rewrite ?G; auto; apply (g_nseg _ Hg)|].
  unfold ft_rows. rewrite K. split.
  - rewrite map_length, combine_length, seq_length. lia.
  - apply Forall_forall. intros row Hr. apply in_map_iff in Hr. destruct Hr as (x & <- & _). apply map_length.
Qed.

Lemma ft_ok_freq p q a mo f ns M : fresh p -> ft_init p q a mo = Ok f -> ft_call f ns = Ok M ->
  Forall (freq_ok q) ns /\ M = ft_rows f ns.
Proof.
  intros Hp Hi Hc. destruct (Forall_dec (freq_ok q) (fun z => ltac:(unfold freq_ok; destruct q; [left; exact I|apply bool_dec|apply bool_dec])) ns) as [HF|HF].
  - split; auto. destruct Hp as (Hg & Ho & Hl). apply ft_init_val in Hi. destruct Hi as (G & K & Q & X1 & X2 & A & Mo & _).
    rewrite ft_call_ok in Hc by (rewrite ?G, ?Q; auto; apply (g_nseg _ Hg)). congruence.
  - apply (ft_call_iff _ _ _ _ _ ns Hp Hi) in HF. congruence.
Qed.

(** * Symmetry *)
Lemma use_asymp_opp f n : use_asymp f (- n) = use_asymp f n.
Proof. unfold use_asymp. destruct (fasymp f); auto. rewrite opp_IZR, Rabs_Ropp. auto. Qed.

Lemma ft_conj p q a mo f ns M : fresh p -> ft_init p q a mo = Ok f -> ft_call f ns = Ok M ->
  ft_call f (map Z.opp ns) = Ok (map (map Cconj) M).
Proof.
  intros Hp Hi Hc. destruct (ft_ok_freq _ _ _ _ _ _ _ Hp Hi Hc) as [HF ->].
  destruct Hp as (Hg & Ho & Hl). apply ft_init_val in Hi. destruct Hi as (G & K & Q & X1 & X2 & A & Mo & _).
  rewrite ft_call_ok; rewrite ?G, ?Q; auto; [|apply (g_nseg _ Hg)|].
  - f_equal. unfold ft_rows. rewrite map_map. apply map_ext. intros [l c]. cbn [fst snd]. rewrite !map_map. apply map_ext. intros n.
    unfold ft_value. rewrite use_asymp_opp. destruct (use_asymp f n); [apply giw_conj|].
    apply unl_conj; rewrite ?G; auto.
  - apply Forall_forall. intros n Hn. apply in_map_iff in Hn. destruct Hn as (k & <- & Hk). rewrite Forall_forall in HF.
    specialize (HF k Hk). unfold freq_ok in *. destruct q; auto; rewrite Z.even_opp; auto.
Qed.

Lemma power_moment_zero s m l d : (s = 1 \/ s = -1) ->
  ((-1) ^ (m + 1) = - (s * (-1) ^ l)) -> power_moment s m l d = 0.
Proof. intros Hs E. unfold power_moment. rewrite E. ring. Qed.
Lemma pow_m1 m : (-1) ^ m = if Nat.even m then 1 else -1.
Proof.
  induction m; [reflexivity|]. rewrite Nat.even_succ, <- Nat.negb_even. cbn [pow]. rewrite IHm. destruct (Nat.even m); simpl; ring.
Qed.

Lemma moments_val p q a f l : fresh p -> ft_init p q a None = Ok f -> a <> NoAsymp -> (l < length (vcols p))%nat ->
  q <> FAny /\ ft_moments f l = map (fun m => power_moment (sign_of q) m l
      (nth l (map (fun c => segF (vgeom p) c (gnseg (vgeom p) - 1) m 1) (vcols p)) 0)) (seq 0 (gorder (vgeom p))).
Proof.
  intros (Hg & Ho & Hl) Hi Ha Hlt. apply ft_init_val in Hi. destruct Hi as (G & K & Q & X1 & X2 & A & Mo & Hok).
  assert (Hq : q <> FAny).
  { intros ->. destruct (Hok Ha eq_refl) as [m Hm]. unfold power_model in Hm. simpl in Hm. destruct (derivs p 1); discriminate. }
  split; auto. unfold ft_moments. rewrite Mo.
  rewrite power_model_val by (auto; lia). destruct a; [congruence| |];
    match goal with |- nth l (map ?F _) [] = _ => rewrite (nth_indep _ [] (F 0%nat)) by (rewrite map_length, seq_length; lia); rewrite (map_nth F), seq_nth by lia; reflexivity end.
Qed.

Lemma ft_parity p q a f ns M l c j v : fresh p -> ft_init p q a None = Ok f -> q <> FAny -> ft_call f ns = Ok M ->
  nth_error (vcols p) l = Some c -> entry M l j = Some v ->
  (csym c = 1 \/ csym c = -1) -> has_parity (vgeom p) c (csym c) ->
  (forall n x, nth_error ns j = Some n -> a = AsympAt x -> x <= Rabs (IZR n) -> csym c = (-1) ^ l) ->
  exists part, func_part (csym c) (ft_zeta q) = Ok part /\
    match part with RealPart => Im v = 0 | ImagPart => Re v = 0 end.
Proof.
  intros Hp Hi Hq Hc El Ev Hs Hpar Ha. destruct (ft_ok_freq _ _ _ _ _ _ _ Hp Hi Hc) as [HF ->].
  assert (Hl : (l < length (vcols p))%nat) by (apply nth_error_Some; congruence).
  pose proof Hp as (Hg & Ho & Hlen). pose proof (ft_init_val _ _ _ _ _ Hi) as (G & K & Q & X1 & X2 & A & Mo & _).
  destruct (nth_error ns j) as [n|] eqn:En.
  2:{ exfalso. unfold entry, ft_rows in Ev. rewrite K, nth_error_map, nth_error_combine_seq, El in Ev. simpl in Ev.
      rewrite nth_error_map, En in Ev. discriminate. }
  rewrite (ft_rows_entry f ns l c j n) in Ev by (auto; rewrite K; auto). injection Ev as <-.
  assert (Hfn : freq_ok q n). { rewrite Forall_forall in HF. apply HF. eapply nth_error_In; eauto. }
  assert (C1 : close 1 1 = true). { unfold close, Rleb. destruct (Rle_dec _ _) as [|N]; auto. exfalso. apply N. rewrite Rminus_eq_0, Rabs_R0, Rabs_R1. lra. }
  assert (C2 : close (-1) 1 = false). { unfold close, Rleb. destruct (Rle_dec _ _) as [N|]; auto. exfalso. replace (-1 - 1) with (- (2)) in N by ring. rewrite Rabs_Ropp, Rabs_R1, (Rabs_pos_eq 2) in N; lra. }
  assert (C3 : close (-1) (-1) = true). { unfold close, Rleb. destruct (Rle_dec _ _) as [|N]; auto. exfalso. apply N. rewrite Rminus_eq_0, Rabs_R0. assert (0 <= Rabs (-1)) by apply Rabs_pos. lra. }
  (* the exact transform *)
  pose proof (unl_parity (vgeom p) Hg X1 X2 Hlen c (csym c) n Hs Hpar) as (U1 & U2 & U3 & U4).
  (* the model *)
  assert (V : use_asymp f n = true ->
     (csym c = 1 -> Z.even n = true -> Im (giw (ft_moments f l) n) = 0) /\
     (csym c = 1 -> Z.even n = false -> Re (giw (ft_moments f l) n) = 0) /\
     (csym c = -1 -> Z.even n = true -> Re (giw (ft_moments f l) n) = 0) /\
     (csym c = -1 -> Z.even n = false -> Im (giw (ft_moments f l) n) = 0)).
  { intros Hu. unfold use_asymp in Hu. rewrite A in Hu. destruct a as [| |x]; try discriminate.
    assert (Hx : x <= Rabs (IZR n)) by (unfold Rleb in Hu; destruct (Rle_dec x (Rabs (IZR n))); [auto|discriminate]).
    specialize (Ha n x eq_refl eq_refl Hx).
    destruct (moments_val p q _ f l Hp Hi ltac:(discriminate) Hl) as [_ EM].
    destruct (giw_parity n (ft_moments f l)) as [P1 P2].
    assert (Hm : forall m, (-1) ^ (m + 1) = - (sign_of q * (-1) ^ l) -> nth m (ft_moments f l) 0 = 0).
    { intros m E. rewrite EM. destruct (Nat.lt_ge_cases m (gorder (vgeom p))) as [Hlt|Hge].
      - match goal with |- nth m (map ?F _) 0 = 0 => rewrite (nth_indep _ 0 (F 0%nat)) by (rewrite map_length, seq_length; lia); rewrite (map_nth F), seq_nth by lia end.
        cbv beta. apply power_moment_zero; [destruct q; simpl; auto|]. exact E.
      - apply nth_overflow. rewrite map_length, seq_length. lia. }
    assert (Hsg : sign_of q = if Z.even n then 1 else -1) by (unfold freq_ok in Hfn; destruct q; [congruence| |]; rewrite Hfn; reflexivity).
    rewrite Hsg, <- Ha in Hm.
    assert (Hm' : forall m, (if Nat.even m then -1 else 1) = - ((if Z.even n then 1 else -1) * csym c) -> nth m (ft_moments f l) 0 = 0).
    { intros m E. apply Hm. rewrite pow_add, pow_1, pow_m1, <- E. destruct (Nat.even m); ring. }
    split; [|split; [|split]]; intros Ec Ee; rewrite Ec, Ee in Hm'.
    - apply P1. intros m Hv. apply Hm'. rewrite Hv. ring.
    - apply P2. intros m Hv. apply Hm'. rewrite Hv. ring.
    - apply P2. intros m Hv. apply Hm'. rewrite Hv. ring.
    - apply P1. intros m Hv. apply Hm'. rewrite Hv. ring. }
  unfold ft_value. rewrite G.
  unfold func_part. destruct Hs as [Es|Es]; rewrite Es in *; [rewrite C1|rewrite C2, C3].
  - eexists; split; [reflexivity|].
    unfold freq_ok in Hfn. destruct q; [congruence| |]; cbn [ft_zeta]; rewrite Hfn in *;
      (destruct (use_asymp f n) eqn:Eu; [destruct (V eq_refl) as (V1 & V2 & V3 & V4)|]); auto.
  - eexists; split; [reflexivity|].
    unfold freq_ok in Hfn. destruct q; [congruence| |]; cbn [ft_zeta]; rewrite Hfn in *;
      (destruct (use_asymp f n) eqn:Eu; [destruct (V eq_refl) as (V1 & V2 & V3 & V4)|]); auto.
Qed.

(** * The switch to the model, and its error *)
Lemma ft_switch p q x f ns M l c j n v : fresh p -> ft_init p q (AsympAt x) None = Ok f -> ft_call f ns = Ok M ->
  nth_error (vcols p) l = Some c -> nth_error ns j = Some n -> entry M l j = Some v ->
  (x <= Rabs (IZR n) -> v = giw (ft_moments f l) n) /\
  (Rabs (IZR n) < x -> v = unl_entry (vgeom p) c n).
Proof.
  intros Hp Hi Hc El En Ev. destruct (ft_ok_freq _ _ _ _ _ _ _ Hp Hi Hc) as [HF ->].
  pose proof (ft_init_val _ _ _ _ _ Hi) as (G & K & Q & X1 & X2 & A & Mo & _).
  rewrite (ft_rows_entry f ns l c j n) in Ev by (auto; rewrite K; auto). injection Ev as <-.
  unfold ft_value, use_asymp. rewrite A, G. unfold Rleb. destruct (Rle_dec x (Rabs (IZR n))); split; intros; auto; lra.
Qed.

Lemma ft_model_error p q x f ns M l c j n v : fresh p -> ft_init p q (AsympAt x) None = Ok f -> ft_call f ns = Ok M ->
  nth_error (vcols p) l = Some c -> nth_error ns j = Some n -> entry M l j = Some v ->
  has_parity (vgeom p) c ((-1) ^ l) -> x <= Rabs (IZR n) -> n <> 0%Z ->
  is_fourier (fun x => PI * IZR n * (x + 1) / 2) (cval (vgeom p) c) (-1) 1
    (Cplus (Cmult (RtoC (sqrt 2)) v)
       (csumn (gorder (vgeom p)) (fun m => Cmult (Cdiv (RtoC ((-1) ^ m)) (cpow (0, PI / 2 * IZR n) (S m))) (jump_sum (vgeom p) c n m)))).
Proof.
  intros Hp Hi Hc El En Ev Hpar Hx Hn. destruct (ft_switch _ _ _ _ _ _ _ _ _ _ _ Hp Hi Hc El En Ev) as [-> _]; auto.
  destruct (ft_ok_freq _ _ _ _ _ _ _ Hp Hi Hc) as [HF _].
  assert (Hl : (l < length (vcols p))%nat) by (apply nth_error_Some; congruence).
  pose proof (ft_init_val _ _ _ _ _ Hi) as (G & K & Q & X1 & X2 & A & Mo & _).
  destruct (moments_val p q _ f l Hp Hi ltac:(discriminate) Hl) as [Hq EM].
  assert (Hfn : freq_ok q n). { rewrite Forall_forall in HF. apply HF. eapply nth_error_In; eauto. }
  pose proof Hp as (Hg & Ho & Hlen).
  rewrite (csumn_ext _ _ (fun m => Cmult (Cmult (RtoC ((-1) ^ m)) (cpow (inv_iw n) (S m))) (jump_sum (vgeom p) c n m))).
  2:{ intros m _. unfold Cdiv. f_equal. f_equal. unfold inv_iw. destruct (Z.eqb_spec n 0); [contradiction|]. symmetry. apply cpow_inv, iw_neq; auto. }
  rewrite <- (model_error (vgeom p) Hg X1 X2 Hlen Ho c (sign_of q) l n (gorder (vgeom p)) (ft_moments f l)); auto.
  - apply unl_fourier; auto.
  - destruct q; simpl; auto.
  - unfold freq_ok in Hfn; destruct q; [congruence| |]; rewrite Hfn; reflexivity.
  - rewrite Hlen; auto.
  - rewrite EM, map_length, seq_length. auto.
  - intros m Hm. rewrite EM.
    match goal with |- nth m (map ?F _) 0 = _ => rewrite (nth_indep _ 0 (F 0%nat)) by (rewrite map_length, seq_length; lia); rewrite (map_nth F), seq_nth by lia end.
    cbv beta. f_equal. rewrite Nat.add_0_l.
    match goal with |- nth l (map ?F _) 0 = _ => rewrite (nth_indep _ 0 (F c)) by (rewrite map_length; lia); rewrite (map_nth F) end.
    rewrite (nth_error_nth _ _ c El). reflexivity.
Qed.

Lemma ft_single p q x f ns M l c j n v : fresh p -> ft_init p q (AsympAt x) None = Ok f -> ft_call f ns = Ok M ->
  nth_error (vcols p) l = Some c -> nth_error ns j = Some n -> entry M l j = Some v ->
  has_parity (vgeom p) c ((-1) ^ l) -> gnseg (vgeom p) = 1%nat -> n <> 0%Z ->
  is_fourier (fun x => PI * IZR n * (x + 1) / 2) (cval (vgeom p) c) (-1) 1 (Cmult (RtoC (sqrt 2)) v).
Proof.
  intros Hp Hi Hc El En Ev Hpar H1 Hn.
  destruct (Rle_lt_dec x (Rabs (IZR n))) as [Hx|Hx].
  - pose proof (ft_model_error _ _ _ _ _ _ _ _ _ _ _ Hp Hi Hc El En Ev Hpar Hx Hn) as H.
    rewrite (csumn_ext _ _ (fun m => Cmult (RtoC 0) (RtoC 0))) in H.
    + rewrite (csumn_scal _ (RtoC 0) (fun _ => RtoC 0)) in H. rewrite Cmult_0_l, Cplus_0_r in H. exact H.
    + intros m _. rewrite jump_single by auto. rewrite !Cmult_0_r. reflexivity.
  - destruct (ft_fourier _ _ _ _ _ _ _ l c j n Hp Hi Hc El En) as (v' & E & H).
    + intros y Hy. injection Hy as <-. auto.
    + rewrite Ev in E. injection E as <-. exact H.
Qed.

(** * Slicing *)
Definition slen (stop : Z) (n : nat) : nat :=
  if (stop <? 0)%Z then Z.to_nat (Z.of_nat n + stop) else Z.to_nat stop.
Lemma slice_firstn {A} stop (l : list A) : slice_to stop l = firstn (slen stop (length l)) l.
Proof. unfold slice_to, slen. destruct (stop <? 0)%Z; reflexivity. Qed.
Lemma firstn_seq k s n : firstn k (seq s n) = seq s (Nat.min k n).
Proof. revert s n. induction k; intros s n; [reflexivity|]. destruct n; [reflexivity|]. simpl. f_equal. apply IHk. Qed.
Lemma nth_firstn {A} (l : list A) k i d : (i < k)%nat -> nth i (firstn k l) d = nth i l d.
Proof.
  revert k i. induction l as [|a l IH]; intros k i H; [rewrite firstn_nil; destruct i; auto|].
  destruct k; [lia|]. destruct i; simpl; auto. apply IH. lia.
Qed.
Lemma ft_rows_seq f ns d : ft_rows f ns = map (fun l => map (ft_value f l (nth l (fcols f) d)) ns) (seq 0 (length (fcols f))).
Proof. unfold ft_rows. rewrite (combine_seq_nth (fcols f) d), map_map. reflexivity. Qed.

Lemma ft_init_slice p q a mo stop f : ft_init p q a mo = Ok f -> q <> FAny -> fresh p ->
  exists f', ft_slice f stop = Ok f' /\ fgeom f' = vgeom p /\ fcols f' = slice_to stop (vcols p) /\ ffreq f' = q /\
    fasymp f' = fasymp f /\ (fasymp f <> None -> fmodel f' = option_map (slice_to stop) (fmodel f)).
Proof.
  intros Hi Hq (Hg & Ho & Hl). pose proof (ft_init_val _ _ _ _ _ Hi) as (G & K & Q & X1 & X2 & A & Mo & _).
  unfold ft_slice. set (p' := VPoly (fgeom f) (slice_to stop (fcols f))).
  assert (Hpm : is_ok (power_model (ffreq f) p')).
  { eexists. apply power_model_val; unfold p'; cbn [vgeom]; rewrite ?G, ?Q; auto. lia. }
  destruct (match fmodel f with None => power_model (ffreq f) p' | Some m => Ok (slice_to stop m) end) as [m|e] eqn:Em.
  2:{ destruct (fmodel f); [discriminate|]. destruct Hpm as [m Hm]. congruence. }
  assert (E : ft_init p' (ffreq f) (asymp_of (fasymp f)) (option_map (slice_to stop) (fmodel f)) =
     Ok (FT (fgeom f) (slice_to stop (fcols f)) (ffreq f) (fasymp f) (Some m))).
  { unfold ft_init, p'. cbn [vgeom vcols]. rewrite G, X1, X2. unfold Reqb.
    destruct (Req_EM_T (-1) (-1)); [|lra]. destruct (Req_EM_T 1 1); [|lra]. cbn [negb orb].
    unfold p' in Em. rewrite G in Em.
    destruct (fmodel f); cbn [option_map] in *; destruct (fasymp f); cbn [asymp_of]; rewrite ?Em; cbn [bind]; congruence. }
  eexists. split; [exact E|]. cbn [fgeom fcols ffreq fasymp fmodel]. rewrite G, K, Q. repeat split; auto.
  intros Ha. rewrite A in Ha. destruct a; try congruence.
  destruct (fmodel f) as [m0|] eqn:EM; [|].
  - cbn [option_map]. congruence.
  - exfalso. destruct mo; [discriminate|]. destruct (power_model q p) eqn:E3; [discriminate|].
    destruct (proj2 (proj2 (proj2 (proj2 (proj2 (proj2 (proj2 (ft_init_val _ _ _ _ _ Hi))))))) ltac:(discriminate) eq_refl). congruence.
Qed.

Lemma model_length p q a f ms : fresh p -> ft_init p q a None = Ok f -> fmodel f = Some ms -> length ms = length (vcols p).
Proof.
  intros Hp Hi HM. pose proof Hp as (Hg & Ho & Hl). pose proof (ft_init_val _ _ _ _ _ Hi) as (G & K & Q & X1 & X2 & A & Mo & Hok).
  assert (Ha : a <> NoAsymp) by (intros ->; congruence).
  assert (Hq : q <> FAny).
  { intros ->. destruct (Hok Ha eq_refl) as [m Hm]. unfold power_model in Hm. simpl in Hm. destruct (derivs p 1); discriminate. }
  rewrite power_model_val in Mo by (auto; lia). rewrite HM in Mo. destruct a; [congruence| |]; injection Mo as ->;
    rewrite map_length, seq_length; auto.
Qed.

Lemma ft_slicing p q a f stop : fresh p -> ft_init p q a None = Ok f -> q <> FAny ->
  exists f', ft_slice f stop = Ok f' /\
    forall ns, ft_call f' ns = (do M <- ft_call f ns; Ok (slice_to stop M)).
Proof.
  intros Hp Hi Hq. destruct (ft_init_slice _ _ _ _ stop _ Hi Hq Hp) as (f' & E & G' & K' & Q' & A' & M').
  exists f'. split; auto. intros ns. pose proof Hp as (Hg & Ho & Hl).
  pose proof (ft_init_val _ _ _ _ _ Hi) as (G & K & Q & X1 & X2 & A & Mo & _).
  destruct (ft_call_iff _ _ _ _ _ ns Hp Hi) as [C1 C2].
  destruct (Forall_dec (freq_ok q) (fun z => ltac:(unfold freq_ok; destruct q; [left; exact I|apply bool_dec|apply bool_dec])) ns) as [HF|HF].
  2:{ rewrite (C2 HF). apply ft_call_freq. rewrite Q'. auto. }
  rewrite (ft_call_ok f ns); rewrite ?G, ?Q; auto; [|apply (g_nseg _ Hg)].
  rewrite (ft_call_ok f' ns); rewrite ?G', ?Q'; auto; [|apply (g_nseg _ Hg)].
  cbn [bind]. f_equal. set (d := Col (fun _ _ => 0) 0).
  rewrite !(ft_rows_seq _ _ d), slice_to_map, K', K. rewrite (slice_firstn stop (vcols p)), (slice_firstn stop (seq _ _)).
  rewrite seq_length, firstn_seq, firstn_length. apply map_ext_in. intros l Hlin. apply in_seq in Hlin.
  rewrite nth_firstn by lia. apply map_ext. intros n.
  unfold ft_value, use_asymp. rewrite A', G', G.
  destruct (fasymp f) as [x|] eqn:Ea; auto. destruct (Rleb x (Rabs (IZR n))); auto. f_equal.
  unfold ft_moments. rewrite M' by discriminate. destruct (fmodel f) as [ms|] eqn:Em; auto. cbn [option_map].
  rewrite slice_firstn, (model_length _ _ _ _ _ Hp Hi Em). apply nth_firstn. lia.
Qed.

Lemma pyindex_nat {A} (l : list A) i a : pyindex l i = Some a ->
  exists k, nth_error l k = Some a /\ forall B (m : list B), length m = length l -> pyindex m i = nth_error m k.
Proof.
  unfold pyindex. intros H. destruct (((- Z.of_nat (length l) <=? i) && (i <? Z.of_nat (length l)))%Z) eqn:E; [|discriminate].
  eexists. split; [exact H|]. intros B m Hm. rewrite Hm, E. reflexivity.
Qed.
Lemma ft_indexing p q a f l c : fresh p -> ft_init p q a None = Ok f -> q <> FAny ->
  pyindex (vcols p) l = Some c ->
  exists f', ft_item f l = Ok f' /\
    forall ns M, ft_call f ns = Ok M -> exists row, pyindex M l = Some row /\ ft_call f' ns = Ok [row].
Proof.
  intros Hp Hi Hq Hc. destruct (pyindex_nat _ _ _ Hc) as (k & Hk & Hidx).
  pose proof Hp as (Hg & Ho & Hl). pose proof (ft_init_val _ _ _ _ _ Hi) as (G & K & Q & X1 & X2 & A & Mo & _).
  assert (Hkl : (k < length (vcols p))%nat) by (apply nth_error_Some; congruence).
  set (mo' := match fmodel f with None => None | Some ms => Some [nth k ms []] end).
  assert (Hmo : fmodel f = None \/ exists ms, fmodel f = Some ms /\ pyindex ms l = Some (nth k ms [])).
  { destruct (fmodel f) as [ms|] eqn:Em; [right|left; auto]. exists ms. split; auto.
    pose proof (model_length _ _ _ _ _ Hp Hi Em) as HL. rewrite Hidx by auto. apply nth_error_nth'. lia. }
  assert (Hpm : exists m, power_model q (VPoly (vgeom p) [c]) = Ok m).
  { eexists. apply power_model_val; cbn [vgeom]; auto. lia. }
  destruct Hpm as [pm Hpm].
  set (m' := match mo' with Some m => m | None => pm end).
  assert (E : ft_item f l = Ok (FT (vgeom p) [c] q (fasymp f) (Some m'))).
  { unfold ft_item. rewrite K, Hc, G, Q. unfold m', mo'.
    assert (Hinit : forall mo, ft_init (VPoly (vgeom p) [c]) q (asymp_of (fasymp f)) mo =
      Ok (FT (vgeom p) [c] q (fasymp f) (Some (match mo with Some m => m | None => pm end)))).
    { intros mo. unfold ft_init. cbn [vgeom vcols]. rewrite X1, X2. unfold Reqb.
      destruct (Req_EM_T (-1) (-1)); [|lra]. destruct (Req_EM_T 1 1); [|lra]. cbn [negb orb].
      destruct mo; destruct (fasymp f); cbn [asymp_of]; rewrite ?Hpm; reflexivity. }
    destruct Hmo as [Em|(ms & Em & Ep)]; rewrite Em; [apply Hinit|rewrite Ep; apply Hinit]. }
  exists (FT (vgeom p) [c] q (fasymp f) (Some m')). split; [exact E|].
  intros ns M HM. destruct (ft_ok_freq _ _ _ _ _ _ _ Hp Hi HM) as [HF ->].
  set (d := Col (fun _ _ => 0) 0).
  exists (map (ft_value f k c) ns). split.
  - rewrite Hidx by (unfold ft_rows; rewrite map_length, combine_length, seq_length, K; lia).
    unfold ft_rows. rewrite nth_error_map, nth_error_combine_seq, K, Hk. reflexivity.
  - rewrite ft_call_ok; cbn [fgeom ffreq]; auto; [|apply (g_nseg _ Hg)]. f_equal.
    unfold ft_rows. cbn [fcols length seq combine map fst snd]. f_equal. apply map_ext. intros n.
    unfold ft_value, use_asymp. cbn [fasymp fgeom]. rewrite G.
    destruct (fasymp f) as [x|] eqn:Ea; auto. destruct (Rleb x (Rabs (IZR n))); auto. f_equal.
    unfold ft_moments, m', mo'. cbn [fmodel]. destruct (fmodel f) as [ms|] eqn:Em; auto.
    exfalso. rewrite A in Ea. destruct a; try discriminate.
    destruct (power_model q p) eqn:E3; [discriminate|].
    destruct (proj2 (proj2 (proj2 (proj2 (proj2 (proj2 (proj2 (ft_init_val _ _ _ _ _ Hi))))))) ltac:(discriminate) eq_refl). congruence.
Qed.

(** Without asymptotics and with freq='any', items and slices cannot be taken. *)
Lemma ft_any_item p f l c stop : fresh p -> ft_init p FAny NoAsymp None = Ok f -> pyindex (vcols p) l = Some c ->
  ft_item f l = Raise KeyError /\ ft_slice f stop = Raise KeyError.
Proof.
  intros (Hg & Ho & Hl) Hi Hc. pose proof (ft_init_val _ _ _ _ _ Hi) as (G & K & Q & X1 & X2 & A & Mo & _).
  assert (Hk : forall cols a, ft_init (VPoly (vgeom p) cols) FAny (asymp_of a) None = Raise KeyError).
  { intros cols a. unfold ft_init. cbn [vgeom vcols]. rewrite X1, X2. unfold Reqb.
    destruct (Req_EM_T (-1) (-1)); [|lra]. destruct (Req_EM_T 1 1); [|lra]. cbn [negb orb].
    assert (E : power_model FAny (VPoly (vgeom p) cols) = Raise KeyError).
    { unfold power_model. rewrite derivs_val; cbn [vgeom]; auto; [lia|lra]. }
    destruct a; cbn [asymp_of]; rewrite E; reflexivity. }
  unfold ft_item, ft_slice. rewrite K, Hc, G, Q, Mo. split; apply Hk.
Qed.

(** * Derivatives *)
Lemma legder_len_val m n : (0 < n)%nat -> legder_len m n = Nat.max (n - m) 1.
Proof.
  intros H. induction m; simpl; [lia|]. change (legder_len (S m) n) with (legder1_len (legder_len m n)).
  unfold legder_len in *. simpl. rewrite IHm. unfold legder1_len. lia.
Qed.
Lemma ft_derivative p q a mo f m ns : fresh p -> (1 < gorder (vgeom p))%nat -> (0 < m)%nat -> vcols p <> [] -> ns <> [] ->
  gorder (vgeom (vderiv m p)) = gorder (vgeom p) /\
  (ft_init (vderiv m p) q a mo = Ok f -> ft_call f ns = Raise ValueError).
Proof.
  intros (Hg & Ho & Hl) H1 Hm Hc Hn. split; [reflexivity|]. intros Hi.
  pose proof (ft_init_val _ _ _ _ _ Hi) as (G & K & Q & X1 & X2 & A & Mo & _).
  unfold ft_call. destruct (Forall_dec (freq_ok (ffreq f)) (fun z => ltac:(unfold freq_ok; destruct (ffreq f); [left; exact I|apply bool_dec|apply bool_dec])) ns) as [HF|HF].
  - rewrite (proj1 (check_freq _ _) HF). cbn [bind]. rewrite unl_inner_raise; auto; rewrite ?G, ?K; cbn [vderiv vgeom vcols gderiv gorder gnseg glen].
    + lia.
    + apply (g_nseg _ Hg).
    + rewrite legder_len_val by lia. lia.
    + destruct (vcols p); [congruence|discriminate].
  - rewrite (proj2 (check_freq _ _) HF). reflexivity.
Qed.
Lemma ft_derivative_init p q a m : fresh p -> gxmin (vgeom p) = -1 -> gxmax (vgeom p) = 1 -> q <> FAny ->
  exists f, ft_init (vderiv m p) q a None = Ok f.
Proof.
  intros (Hg & Ho & Hl) X1 X2 Hq. unfold ft_init. change (gxmin (vgeom (vderiv m p))) with (gxmin (vgeom p)).
  change (gxmax (vgeom (vderiv m p))) with (gxmax (vgeom p)). rewrite X1, X2. unfold Reqb.
  destruct (Req_EM_T (-1) (-1)); [|lra]. destruct (Req_EM_T 1 1); [|lra]. cbn [negb orb].
  destruct a; [eexists; reflexivity| |]; rewrite power_model_val; auto; cbn [bind]; try (eexists; reflexivity);
    cbn [vderiv vgeom gderiv glen gorder]; auto; try (apply gderiv_ok; auto); apply legder_len_pos; lia.
Qed.

(** * Examples *)
Definition ft_poly : vpoly := VPoly unit_geom [square_col; line_col].
Lemma line_value x : -1 <= x <= 1 -> cval unit_geom line_col x = x.
Proof.
  intros Hx. rewrite (cval_seg unit_geom unit_geom_ok line_col 0).
  - unfold seg_fun, knot, unit_geom. simpl. rewrite legP_1.
    replace (2 / (1 - -1)) with 1 by field. rewrite sqrt_1. field.
  - simpl. lia.
  - unfold knot. simpl. lra.
  - unfold knot, gxmax. simpl. destruct (Rlt_dec x 1); [auto|]. right. split; [auto|lra].
Qed.
Lemma ft_poly_fresh : fresh ft_poly.
Proof. split; [exact unit_geom_ok|]. simpl. auto. Qed.
Lemma unit_knots i : (i <= 1)%nat -> knot unit_geom (1 - i) = - knot unit_geom i.
Proof. intros H. destruct i as [|[|i]]; [| |lia]; unfold knot; simpl; lra. Qed.
Lemma square_has_parity : has_parity unit_geom square_col ((-1) ^ 0).
Proof.
  split; [exact unit_knots|]. intros i x Hi Hx. simpl in Hi. assert (i = 0)%nat as -> by lia. unfold knot in Hx. simpl in Hx.
  rewrite !square_value by lra. simpl. ring.
Qed.
Lemma line_has_parity : has_parity unit_geom line_col ((-1) ^ 1).
Proof.
  split; [exact unit_knots|]. intros i x Hi Hx. simpl in Hi. assert (i = 0)%nat as -> by lia. unfold knot in Hx. simpl in Hx.
  rewrite !line_value by lra. simpl. ring.
Qed.
Lemma ft_poly_init q a : q <> FAny -> exists f, ft_init ft_poly q a None = Ok f.
Proof.
  intros Hq. destruct (ft_derivative_init ft_poly q a 0 ft_poly_fresh eq_refl eq_refl Hq) as [f Hf].
  rewrite vderiv_0 in Hf. exists f. exact Hf.
Qed.
