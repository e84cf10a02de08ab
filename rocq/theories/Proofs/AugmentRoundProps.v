(** C106: augmentations and augmented bases in rounded arithmetic. *)
From Coq Require Import Reals ZArith Arith Bool Lra Lia Psatz String.
From Coquelicot Require Import Coquelicot.
From Coq Require Import List.
From Verif.Model Require Import Base Util Num Poly PolyIEEE FT FTIEEE SVE Basis Augment AugmentIEEE IEEE.
From Verif.Spec Require Import SUtil SPoly SPolyIEEE SFT SFTIEEE SKernelIEEE SBasis SBasisIEEE SAugment SAugmentIEEE SDefaults STransform STransformIEEE.
From Verif.Proofs Require Import UtilFacts PPolyFacts FTFacts KernelRoundCall DLRRound DLRRoundProps PolyRound FTRoundProps AugmentFacts AugmentProps AugmentRound BasisRoundProps TransformRoundProps.
Import ListNotations.
Open Scope R_scope.
Notation length := List.length.

Definition value_near rd (a : aug) (t : R) : R :=
  match a with TauConst b => const_value_rd rd b | TauLinear b => linear_value_rd rd b t | MatsubaraConst _ => 0 end.
Lemma call_rd_ok rd a ts : tau_aug a -> Forall (fun t => 0 <= t <= aug_beta a) ts ->
  aug_call_rd rd a (FltArr (map Fin ts)) = Ok (map Fin (map (value_near rd a) ts)).
Proof.
  intros Ha Ht. destruct a as [b|b|b]; [| |destruct Ha]; unfold aug_call_rd; cbn [as_floats_rd aug_beta] in *;
    rewrite (proj1 (range_fins b ts) Ht); cbn [bind]; rewrite !map_map; reflexivity.
Qed.
Lemma Forall2_map_r {A B} (P : A -> B -> Prop) (g : A -> B) l : Forall (fun x => P x (g x)) l -> Forall2 P l (map g l).
Proof. induction 1; constructor; auto. Qed.

Lemma values_close u eta rd a f ts : rounding u eta rd -> 0 < u <= / 10000 -> 0 <= eta -> tau_aug a -> fair_beta u eta (aug_beta a) -> is_function a f ->
  Forall (fun t => 0 <= t <= aug_beta a) ts ->
  exists vs, aug_call_rd rd a (FltArr (map Fin ts)) = Ok (map Fin vs) /\
  Forall2 (fun t v => Rabs (v - f t) <= 9 * u * sqrt (3 / aug_beta a)) ts vs.
Proof.
  intros Hrd Hu He Ha HF Hf Ht. exists (map (value_near rd a) ts). split; [apply call_rd_ok; assumption|]. apply Forall2_map_r.
  pose proof (proj1 (is_function_iff a f Ha) Hf) as E. eapply Forall_impl; [|exact Ht]. cbv beta. intros t I. rewrite (E t I).
  destruct a as [b|b|b]; [| |destruct Ha]; cbn [aug_beta value_near tau_fun] in *; [|apply (near_linear u eta rd Hrd Hu He b HF t I)].
  pose proof (near_const u eta rd Hrd Hu He b HF) as N. unfold rel in N. unfold const_fun. eapply Rle_trans; [exact N|].
  assert (P : 0 < b) by apply HF. pose proof (sqrt_lt_R0 _ P) as S. assert (Q : 0 < / b) by now apply Rinv_0_lt_compat.
  assert (L : 1 / sqrt b <= sqrt (3 / b)). { unfold Rdiv. rewrite Rmult_1_l, <- sqrt_inv. apply sqrt_le_1_alt. lra. }
  rewrite Rabs_pos_eq by (apply Rlt_le, Rdiv_lt_0_compat; lra). pose proof (sqrt_pos (3 / b)).
  apply Rle_trans with (3 * u * sqrt (3 / b)); [apply Rmult_le_compat_l; lra|apply Rmult_le_compat_r; lra].
Qed.

Lemma derivatives_close u eta rd a f n ts : rounding u eta rd -> 0 < u <= / 10000 -> 0 <= eta -> tau_aug a -> fair_beta u eta (aug_beta a) -> is_function a f ->
  (0 < n)%nat -> Forall (fun t => 0 < t < aug_beta a) ts ->
  exists vs, aug_deriv_rd rd a n (FltArr (map Fin ts)) = Ok (map Fin vs) /\
  Forall2 (fun t v => exists d, is_derive_n f n t d /\ Rabs (v - d) <= 5 * u * Rabs d) ts vs.
Proof.
  intros Hrd Hu He Ha HF Hf Hn Ht. assert (Hb : 0 < aug_beta a) by apply HF.
  destruct (deriv_ok a f n ts Ha Hb Hf Ht) as (ds & E & F).
  assert (K : exists c c', aug_deriv a n (FltArr (map Fin ts)) = Ok (map Fin (map (fun _ => c) ts)) /\ aug_deriv_rd rd a n (FltArr (map Fin ts)) = Ok (map Fin (map (fun _ => c') ts)) /\ Rabs (c' - c) <= 5 * u * Rabs c).
  { assert (Z : Rabs (0 - 0) <= 5 * u * Rabs 0) by (rewrite Rminus_0_r, Rabs_R0; lra).
    destruct a as [b|b|b]; [| |destruct Ha]; destruct n as [|[|n]]; try lia; unfold aug_deriv, aug_deriv_rd; cbn [full_like].
    - exists 0, 0. rewrite !map_map. auto.
    - exists 0, 0. rewrite !map_map. auto.
    - exists (sqrt (3 / b) * 2 / b), (slope_rd rd b). rewrite !map_map. split; [reflexivity|]. split; [reflexivity|]. exact (near_slope u eta rd Hrd Hu He b HF).
    - exists 0, 0. rewrite !map_map. auto. }
  destruct K as (c & c' & E1 & E2 & C). exists (map (fun _ => c') ts). split; [exact E2|].
  assert (ds = map (fun _ => c) ts). { rewrite E1 in E. injection E as E. clear -E. revert E. generalize (map (fun _ : R => c) ts). intros l. revert ds. induction l; intros [|d ds]; cbn; intros H; try discriminate; [reflexivity|]. injection H as -> H. f_equal. auto. }
  subst ds. clear E E1 E2 Ht. induction ts as [|t ts IH]; cbn in *; [constructor|]. inversion F; subst. constructor; [exists c; auto|auto].
Qed.

Definition hat_near rd pi (a : aug) (k : Z) : C :=
  match a with TauConst b => if (k =? 0)%Z then RtoC (rd (sqrt b)) else RtoC 0 | TauLinear b => linear_hat_rd rd pi b k | MatsubaraConst _ => RtoC 1 end.
Lemma hat_rd_ok rd pi npc a sc ns : Forall (fun k => Z.even k = true) ns ->
  aug_hat_rd rd pi npc a sc (IntArr ns) =
  match a with
  | TauConst _ => if npc then Ok (map (hat_near rd pi a) ns) else Raise AttributeError
  | TauLinear _ => if sc then Raise TypeError else Ok (map (hat_near rd pi a) ns)
  | MatsubaraConst _ => Ok (map (hat_near rd pi a) ns)
  end.
Proof.
  intros H. destruct a; unfold aug_hat_rd; [rewrite check_even by auto|rewrite check_even by auto|]; cbn [bind];
    [destruct npc|destruct sc|]; reflexivity.
Qed.
Lemma linear_hat_exact b k : k <> 0%Z -> hat_val (TauLinear b) k = (0, - (sqrt (3 / b) * 2) * / (PI / b * IZR k)).
Proof. intros Hk. cbn [hat_val]. rewrite (proj2 (Z.eqb_neq k 0) Hk). set (w := / (PI / b * IZR k)); clearbody w; apply C_eq; cbn; field. Qed.

Lemma hats_close u eta rd pi a f ns : rounding u eta rd -> 0 < u <= / 10000 -> 0 <= eta -> Rabs (pi - PI) <= u * PI -> tau_aug a -> fair_beta u eta (aug_beta a) -> is_function a f ->
  Forall (fun k => Z.even k = true /\ fair_freq u eta (aug_beta a) k) ns ->
  exists vs, aug_hat_rd rd pi true a false (IntArr ns) = Ok vs /\
  Forall2 (fun k v => exists w, is_fourier (fun t => PI * IZR k * t / aug_beta a) f 0 (aug_beta a) w /\ Cmod (Cminus v w) <= 10 * u * Cmod w) ns vs.
Proof.
  intros Hrd Hu He Hpi Ha HF Hf Hn. assert (Hb : 0 < aug_beta a) by apply HF. exists (map (hat_near rd pi a) ns). split.
  { rewrite hat_rd_ok by (eapply Forall_impl; [|exact Hn]; cbv beta; tauto). destruct a; reflexivity. }
  apply Forall2_map_r. pose proof (proj1 (is_function_iff a f Ha) Hf) as E. eapply Forall_impl; [|exact Hn]. cbv beta. intros k (Hk & Fk). exists (hat_val a k).
  split. { apply is_fourier_ext_in with (tau_fun a); [lra| |apply hat_fourier; auto]. intros t Ht. symmetry. apply E. exact Ht. }
  destruct a as [b|b|b]; [| |destruct Ha]; cbn [aug_beta] in *.
  - cbn [hat_near hat_val]. destruct (k =? 0)%Z.
    + rewrite <- RtoC_minus, !Cmod_R. pose proof (sqrt_lt_R0 _ Hb) as S. assert (S2 : sqrt b * sqrt b = b) by (apply sqrt_sqrt; lra).
      assert (Es : 10000 * eta <= u * sqrt b). { destruct (Rle_dec 1 b); [eapply fair_1; eauto; nra|eapply fair_b; eauto; nra]. }
      pose proof (rde u eta rd Hrd (sqrt b)) as Q. rewrite (Rabs_pos_eq (sqrt b)) in * by lra. assert (0 <= u * sqrt b) by (apply Rmult_le_pos; lra). lra.
    + replace (Cminus (RtoC 0) (RtoC 0)) with (RtoC 0) by (apply C_eq; cbn; ring). rewrite Cmod_0. lra.
  - destruct (Z.eq_dec k 0) as [->|K].
    + cbn [hat_near hat_val]. unfold linear_hat_rd. rewrite Z.eqb_refl. cbv zeta. rewrite (rd_0 u eta rd Hrd), !Rmult_0_r, (rd_0 u eta rd Hrd), Rmult_0_r, (rd_0 u eta rd Hrd).
      match goal with |- Cmod ?x <= _ => replace x with (RtoC 0) by (apply C_eq; cbn; ring) end. rewrite Cmod_0. apply Rmult_le_pos; [lra|apply Cmod_ge_0].
    + rewrite (linear_hat_exact b k K). cbn [hat_near].
      pose proof (near_hat u eta rd Hrd Hu He b HF pi k Hpi K Fk) as N. unfold rel in N.
      assert (I : forall y, Cmod (0, y) = Rabs y). { intros y. unfold Cmod. cbn [fst snd]. replace (0 ^ 2 + y ^ 2) with (Rsqr y) by (unfold Rsqr; ring). apply sqrt_Rsqr_abs. }
      rewrite I. match goal with |- Cmod ?x <= _ => replace x with (0, snd (linear_hat_rd rd pi b k) - - (sqrt (3 / b) * 2) * / (PI / b * IZR k)) end; [rewrite I; exact N|].
      apply C_eq; cbn; ring.
Qed.

Lemma refuses rd pi : (forall a ts, ~ Forall (fun t => 0 <= t <= aug_beta a) ts -> aug_call_rd rd a (FltArr (map Fin ts)) = Raise ValueError) /\
  (forall npc a sc ns, tau_aug a -> ~ Forall (fun k => Z.even k = true) ns -> aug_hat_rd rd pi npc a sc (IntArr ns) = Raise ValueError) /\
  (forall b tau npc sc ns, aug_call_rd rd (MatsubaraConst b) (FltArr tau) = aug_call (MatsubaraConst b) (FltArr tau) /\
     aug_hat_rd rd pi npc (MatsubaraConst b) sc (IntArr ns) = Ok (map (fun _ => RtoC 1) ns)).
Proof.
  split; [|split].
  - intros a ts H. destruct a as [b|b|b]; unfold aug_call_rd; cbn [as_floats_rd aug_beta] in *; rewrite (proj2 (range_fins b ts) H); reflexivity.
  - intros npc a sc ns Ha H. destruct a; [| |destruct Ha]; unfold aug_hat_rd; rewrite check_odd by auto; reflexivity.
  - intros. split; reflexivity.
Qed.

Lemma u_rows old rd b augs xs M : augu_call_rd old rd (AugBasis b augs) xs = Ok M ->
  length M = (length augs + length (vcols (bu b)))%nat /\
  (forall l f, nth_error augs l = Some f -> exists row, aug_call_rd rd f (FltArr (map Fin xs)) = Ok row /\ nth_error M l = Some row) /\
  (forall l j x, (l < length (vcols (bu b)))%nat -> nth_error xs j = Some x ->
     exists row v, nth_error M (length augs + l) = Some (map Fin row) /\ nth_error row j = Some v /\ value_rd old rd (bu b) (Z.of_nat l) x = Ok v).
Proof.
  unfold augu_call_rd. cbn [abasis aaugs]. destruct (vcall_arr_rd old rd (bu b) xs) as [B|] eqn:EB; [|discriminate]. cbn [bind].
  destruct (collect _) as [A|] eqn:EA; [|discriminate]. cbn [bind]. intros [= <-]. destruct (collect_map_nth _ _ _ EA) as [LA HA]. destruct (arr_entry _ _ _ _ _ EB) as [LB HB].
  split; [rewrite app_length, map_length; lia|]. split.
  - intros l f Hl. destruct (HA l f Hl) as (row & E & N). exists row. split; [exact E|]. rewrite nth_error_app1; [exact N|]. apply nth_error_Some. congruence.
  - intros l j x Hl Hx. destruct (nth_error B l) as [row|] eqn:Er; [|apply nth_error_None in Er; lia]. destruct (HB l j row x Er Hx) as (v & V1 & V2).
    exists row, v. split; [|auto]. rewrite nth_error_app2 by lia. replace (length augs + l - length A)%nat with l by lia. rewrite nth_error_map, Er. reflexivity.
Qed.

Lemma built_arr u eta rd pw compute b old xs : built_rd u eta rd pw compute b ->
  (Forall (fun t => gxmin (vgeom (bu b)) <= t <= gxmax (vgeom (bu b))) xs -> exists M, vcall_arr_rd old rd (bu b) xs = Ok M) /\
  (~ Forall (fun t => gxmin (vgeom (bu b)) <= t <= gxmax (vgeom (bu b))) xs -> vcall_arr_rd old rd (bu b) xs = Raise ValueError).
Proof.
  intros Hb. destruct (built_rd_inv u eta rd pw compute b Hb) as (q & e & ms & lam & f & Pb & Pw & Ex & Hn & _ & _ & Eu & _).
  destruct Ex as ((Gn & _ & _ & _ & Po & Eo) & _). destruct Gn as (Ns & _).
  assert (En : gnseg (vgeom (bu b)) = gnseg (vgeom (su (bsve b))) /\ glen (vgeom (bu b)) = glen (vgeom (su (bsve b)))) by (rewrite Eu; split; reflexivity).
  assert (Fa : forallb (in_range (vgeom (bu b))) xs = true <-> Forall (fun t => gxmin (vgeom (bu b)) <= t <= gxmax (vgeom (bu b))) xs).
  { rewrite forallb_forall, Forall_forall. unfold in_range. split; intros H t Ht; specialize (H t Ht).
    - apply andb_true_iff in H as (A1 & A2). destruct (GaussFacts.Rleb_spec (gxmin (vgeom (bu b))) t); [|discriminate]. destruct (GaussFacts.Rleb_spec t (gxmax (vgeom (bu b)))); [|discriminate]. lra.
    - apply andb_true_iff. destruct (GaussFacts.Rleb_spec (gxmin (vgeom (bu b))) t); [|lra]. destruct (GaussFacts.Rleb_spec t (gxmax (vgeom (bu b)))); [|lra]. auto. }
  unfold vcall_arr_rd. split; intros H.
  - pose proof (proj2 Fa H) as G. rewrite G. cbn [negb]. assert (C : exists ix, collect (map (split_rd rd (vgeom (bu b))) xs) = Ok ix).
    { rewrite forallb_forall in G. clear -G En Ns. induction xs as [|t l IH]; [exists []; reflexivity|]. destruct IH as (ix & E); [intros x Hx; apply G; right; exact Hx|].
      cbn [map collect]. unfold split_rd at 1. rewrite (G t (or_introl eq_refl)). cbn [negb]. destruct (gnseg (vgeom (bu b))); [lia|]. cbn [bind]. rewrite E. cbn [bind]. eauto. }
    destruct C as (ix & ->). cbn [bind]. destruct (glen (vgeom (bu b))) eqn:Gl; [lia|]. eauto.
  - destruct (forallb (in_range (vgeom (bu b))) xs) eqn:G; [exfalso; apply H, Fa; reflexivity|]. reflexivity.
Qed.

Lemma u_succeeds u eta rd pw compute old b augs xs : built_rd u eta rd pw compute b ->
  let inside := Forall (fun t => gxmin (vgeom (bu b)) <= t <= gxmax (vgeom (bu b))) xs /\ (forall f, In f augs -> Forall (fun t => 0 <= t <= aug_beta f) xs) in
  (inside -> exists M, augu_call_rd old rd (AugBasis b augs) xs = Ok M) /\ (~ inside -> augu_call_rd old rd (AugBasis b augs) xs = Raise ValueError).
Proof.
  intros Hg inside. destruct (built_arr u eta rd pw compute b old xs Hg) as [S1 S2]. unfold augu_call_rd. cbn [abasis aaugs].
  assert (R : forall f, exists a, aug_call_rd rd f (FltArr (map Fin xs)) = Ok a \/ aug_call_rd rd f (FltArr (map Fin xs)) = Raise ValueError).
  { intros f. destruct (aug_call_rd rd f (FltArr (map Fin xs))) as [a|e] eqn:E; [exists a; auto|]. exists []. right. rewrite <- E.
    destruct f as [c|c|c]; unfold aug_call_rd in *; cbn [as_floats_rd] in *; (destruct (Forall_dec (fun t => 0 <= t <= c) (fun t => ltac:(destruct (Rle_dec 0 t); destruct (Rle_dec t c); [left|right|right|right]; lra)) xs) as [Y|N]; [rewrite (proj1 (range_fins c xs) Y) in E; discriminate|rewrite (proj2 (range_fins c xs) N); reflexivity]). }
  split.
  - intros [I1 I2]. destruct (S1 I1) as [B EB]. rewrite EB. cbn [bind].
    destruct (collect_map_ok (fun f => aug_call_rd rd f (FltArr (map Fin xs))) augs) as [A EA].
    { intros f Hf. specialize (I2 f Hf). destruct f as [c|c|c]; unfold aug_call_rd; cbn [as_floats_rd aug_beta] in *; rewrite (proj1 (range_fins c xs) I2); eexists; reflexivity. }
    rewrite EA. eexists. reflexivity.
  - intros N. destruct (Forall_dec (fun t => gxmin (vgeom (bu b)) <= t <= gxmax (vgeom (bu b))) (fun t => ltac:(destruct (Rle_dec (gxmin (vgeom (bu b))) t); destruct (Rle_dec t (gxmax (vgeom (bu b)))); [left|right|right|right]; lra)) xs) as [Y|NY]; [|rewrite (S2 NY); reflexivity].
    destruct (S1 Y) as [B EB]. rewrite EB. cbn [bind].
    assert (X : exists f, In f augs /\ ~ Forall (fun t => 0 <= t <= aug_beta f) xs).
    { destruct (Exists_dec (fun f => ~ Forall (fun t => 0 <= t <= aug_beta f) xs) augs) as [Q|Q].
      - intros f. destruct (Forall_dec (fun t => 0 <= t <= aug_beta f) (fun t => ltac:(destruct (Rle_dec 0 t); destruct (Rle_dec t (aug_beta f)); [left|right|right|right]; lra)) xs); [right|left]; tauto.
      - apply Exists_exists in Q. exact Q.
      - exfalso. apply N. split; [exact Y|]. intros f Hf. destruct (Forall_dec (fun t => 0 <= t <= aug_beta f) (fun t => ltac:(destruct (Rle_dec 0 t); destruct (Rle_dec t (aug_beta f)); [left|right|right|right]; lra)) xs) as [G|G]; [exact G|]. exfalso. apply Q. apply Exists_exists. exists f. auto. }
    destruct X as (f & Hf & Nf).
    rewrite (collect_raise _ ValueError); [reflexivity| |].
    + intros r Hr. apply in_map_iff in Hr. destruct Hr as (g & <- & _). apply R.
    + exists (aug_call_rd rd f (FltArr (map Fin xs))). split; [apply in_map_iff; exists f; auto|]. apply (refuses rd 0). exact Nf.
Qed.

Lemma uhat_rows rd F model npc sc b augs ns M : auguhat_call_rd rd F model npc (AugBasis b augs) sc ns = Ok M ->
  exists A B, M = A ++ B /\ length A = length augs /\ ft_call_rd rd F model (buhat b) ns = Ok B /\
  forall l f, nth_error augs l = Some f -> exists row, aug_hat_rd rd (f_pi F) npc f sc (IntArr ns) = Ok row /\ nth_error A l = Some row.
Proof.
  unfold auguhat_call_rd. cbn [abasis aaugs]. destruct (ft_call_rd rd F model (buhat b) ns) as [B|] eqn:EB; [|discriminate]. cbn [bind].
  destruct (collect _) as [A|] eqn:EA; [|discriminate]. cbn [bind]. intros [= <-]. destruct (collect_map_nth _ _ _ EA) as [LA HA]. exists A, B. auto.
Qed.

Lemma uhat_succeeds u eta rd pw compute F model b augs ns : built_rd u eta rd pw compute b ->
  let inside := Forall (allowed b) ns /\ (forall f, In f augs -> tau_aug f -> Forall (fun k => Z.even k = true) ns) in
  (inside -> exists M, auguhat_call_rd rd F model true (AugBasis b augs) false ns = Ok M) /\
  (~ inside -> auguhat_call_rd rd F model true (AugBasis b augs) false ns = Raise ValueError).
Proof.
  intros Hb inside. destruct (uhat_outcome u eta rd pw compute b true F model Hb ns) as [S1 S2]. change (Sampling.sb_uhat _ ns) with (ft_call_rd rd F model (buhat b) ns) in S1, S2. unfold auguhat_call_rd. cbn [abasis aaugs].
  assert (D : {Forall (fun k => Z.even k = true) ns} + {~ Forall (fun k => Z.even k = true) ns}) by (apply Forall_dec; intros k; apply bool_dec).
  assert (R : forall f, (tau_aug f -> Forall (fun k => Z.even k = true) ns) -> exists a, aug_hat_rd rd (f_pi F) true f false (IntArr ns) = Ok a).
  { intros f Hf. destruct f as [c|c|c]; [rewrite hat_rd_ok by (apply Hf; exact I)|rewrite hat_rd_ok by (apply Hf; exact I)|]; eexists; reflexivity. }
  split.
  - intros [I1 I2]. destruct (S1 I1) as [B EB]. rewrite EB. cbn [bind].
    assert (K : is_ok (collect (map (fun f => aug_hat_rd rd (f_pi F) true f false (IntArr ns)) augs))) by (apply collect_map_ok; intros f Hf; apply R; exact (I2 f Hf)). destruct K as [A EA]. rewrite EA. eexists. reflexivity.
  - intros N. destruct (Forall_dec (allowed b) (fun k => ltac:(unfold allowed; apply Z.eq_dec)) ns) as [Y|NY]; [|rewrite (S2 NY); reflexivity].
    destruct (S1 Y) as [B EB]. rewrite EB. cbn [bind]. destruct D as [D|D]; [exfalso; apply N; split; auto|].
    assert (T : forall f, {tau_aug f} + {~ tau_aug f}) by (intros [c|c|c]; cbn; tauto).
    destruct (Exists_dec tau_aug augs T) as [Q|Q]; [|exfalso; apply N; split; [exact Y|]; intros f Hf Ha; exfalso; apply Q, Exists_exists; exists f; auto].
    apply Exists_exists in Q. destruct Q as (f & Hf & Ha). rewrite (collect_raise _ ValueError); [reflexivity| |].
    + intros r Hr. apply in_map_iff in Hr. destruct Hr as (g & <- & _). destruct (T g) as [G|G]; [exists []; right; apply (refuses rd (f_pi F)); assumption|].
      destruct (R g) as [a Ea]; [intros; contradiction|]. exists a. left. exact Ea.
    + exists (aug_hat_rd rd (f_pi F) true f false (IntArr ns)). split; [apply in_map_iff; exists f; auto|]. apply (refuses rd (f_pi F)); assumption.
Qed.

Lemma aug_exact old :
  (forall a tau, aug_call_rd (fun x => x) a tau = aug_call a tau) /\ (forall a n tau, aug_deriv_rd (fun x => x) a n tau = aug_deriv a n tau) /\
  (forall npc a sc n, aug_hat_rd (fun x => x) PI npc a sc n = aug_hat npc a sc n) /\
  (forall a x, augu_call_rd old (fun x => x) a x = augu_call a x) /\
  (forall npc a sc n, auguhat_call_rd (fun x => x) exact_library (fun l n => giw (ft_moments (buhat (abasis a)) l) n) npc a sc n = auguhat_call npc a sc n).
Proof.
  assert (H1 : forall a tau, aug_call_rd (fun x => x) a tau = aug_call a tau) by (intros [b|b|b] tau; reflexivity).
  assert (H3 : forall npc a sc n, aug_hat_rd (fun x => x) PI npc a sc n = aug_hat npc a sc n).
  { intros npc [b|b|b] sc n; [reflexivity| |reflexivity]. unfold aug_hat_rd, aug_hat. destruct (check_reduced_matsubara n (Some 0%Z)) as [ns|]; [|reflexivity]. cbn [bind].
    destruct sc; [reflexivity|]. f_equal. apply map_ext. intros k. unfold linear_hat_rd, norm_rd. cbv zeta. set (w := if (k =? 0)%Z then _ else _).
    apply C_eq; cbn; field. }
  split; [exact H1|]. split. { intros [b|b|b] [|[|n]] tau; cbn [aug_deriv_rd aug_deriv]; reflexivity. }
  split; [exact H3|]. split.
  - intros a x. unfold augu_call_rd, augu_call. destruct (exact_arithmetic old) as (_ & _ & _ & E & _). rewrite E. reflexivity.
  - intros npc a sc n. unfold auguhat_call_rd, auguhat_call. rewrite call_exact. destruct (ft_call _ n); [|reflexivity]. cbn [bind].
    replace (map (fun f => aug_hat_rd (fun x => x) (f_pi exact_library) npc f sc (IntArr n)) (aaugs a)) with (map (fun f => aug_hat npc f sc (IntArr n)) (aaugs a)); [reflexivity|].
    apply map_ext. intros f. symmetry. apply H3.
Qed.

Lemma fair_doubles beta k : / 10 ^ 100 <= beta <= 10 ^ 100 -> fair_beta (/ 2 ^ 53) eta64 beta /\ ((Z.abs k <= 10 ^ 100)%Z -> fair_freq (/ 2 ^ 53) eta64 beta k).
Proof.
  intros [B1 B2]. pose proof DLRRoundProps.eta_small as E. assert (E0 : 0 <= eta64) by apply (small_double 0 ltac:(lra)).
  set (P := 10 ^ 100) in *. assert (EP : 10 ^ 300 = P * P * P) by (unfold P; rewrite <- !pow_add; f_equal). assert (P1 : 10000 <= P). { unfold P. replace 10000 with (10 ^ 4) by (cbn; lra). apply Rle_pow; [lra|lia]. }
  rewrite EP in E. set (u := / 2 ^ 53) in *. assert (Pi : 0 < / P) by (apply Rinv_0_lt_compat; lra). assert (Bp : 0 < beta) by lra.
  assert (PP : P <= P * P) by nra. assert (PPP : P * P <= P * P * P) by nra. assert (Up : 0 < u) by (unfold u; apply Rinv_0_lt_compat, pow_lt; lra).
  assert (A2 : P * P * eta64 <= u * / P). { apply (Rmult_le_reg_r P); [lra|]. rewrite (Rmult_assoc u), Rinv_l by lra. lra. }
  assert (A3 : u * / P <= u * beta) by (apply Rmult_le_compat_l; lra).
  assert (A1 : P * eta64 <= P * P * eta64) by (apply Rmult_le_compat_r; lra). assert (A4 : P * P * eta64 <= P * P * P * eta64) by (apply Rmult_le_compat_r; lra).
  assert (A0 : 10000 * eta64 <= P * eta64) by (apply Rmult_le_compat_r; lra).
  split.
  - split; [exact Bp|]. split; [lra|]. split; [lra|]. apply Rle_trans with (P * eta64 * (P * P)); [|lra]. apply Rmult_le_compat; try nra. 
  - intros Hk. assert (K : Rabs (IZR k) <= P). { rewrite <- abs_IZR. replace P with (IZR (10 ^ 100)). apply IZR_le, Hk. unfold P. change (10 ^ 100)%Z with (Z.pow 10 (Z.of_nat 100)). rewrite <- pow_IZR. reflexivity. }
    assert (A5 : 10000 * eta64 * Rabs (IZR k) <= P * eta64 * P) by (apply Rmult_le_compat; try lra; try apply Rabs_pos; nra). split; lra.
Qed.
