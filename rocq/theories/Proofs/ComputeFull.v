(** The whole of sve.compute. *)
From Coq Require Import String ZArith Arith Bool Reals Lra Lia Psatz.
From Coquelicot Require Import Coquelicot.
From Coq Require Import List Sorting.Sorted Sorting.Permutation.
From Verif.Model Require Import Base Util Num Gauss Poly SVE Kernel Compute.
From Verif.Spec Require Import SGauss SPoly SFT SSVE SBasis SKernel SCompute.
From Verif.Proofs Require Import BaseFacts SumFacts IntFacts GaussFacts PPolyFacts SVEFacts BasisPhys KernelProps KernelSegs HintFacts ComputeNodes ComputePost ComputeSampling ComputeMerge ComputeMerged ComputeError.
Import ListNotations.
Open Scope R_scope.
Notation length := List.length.

(** * Values of the merged expansion at nodes and their reflections *)
Section MergeNodes.
Variables (argsort : list R -> list nat) (eps : R) (n : nat) (hx hy : list R) (even odd r : sve_result).
Hypothesis Hhx : half_edges hx.
Hypothesis Hhy : half_edges hy.
Hypothesis He : sve_on n hx hy even.
Hypothesis Ho : sve_on n hx hy odd.
Hypothesis Hsort : sorts (ss even ++ ss odd) (argsort (ss even ++ ss odd)).
Hypothesis Hm : merge argsort eps (mirrored hx) (mirrored hy) even odd = Ok r.

Lemma node_value x y e o : 0 < x < 1 -> 0 < y < 1 -> ~ In x hx -> ~ In y hy ->
  sve_sum even x y = Ok e -> sve_sum odd x y = Ok o ->
  sve_sum r x y = Ok ((e + o) / 2) /\ sve_sum r (- x) (- y) = Ok ((e + o) / 2) /\
  sve_sum r x (- y) = Ok ((e - o) / 2) /\ sve_sum r (- x) y = Ok ((e - o) / 2).
Proof.
  intros Hx Hy Nx Ny Ee Eo.
  pose (k := fun a b => (e + (if Rltb a 0 then -1 else 1) * (if Rltb b 0 then -1 else 1) * o) / 2).
  assert (Hz : forall a, Rltb a 0 = if Rlt_dec a 0 then true else false).
  { intros a. destruct (Rlt_dec a 0); [apply Rltb_true; auto|apply Rltb_false; lra]. }
  assert (W : forall a b, (a = x \/ a = - x) -> (b = y \/ b = - y) -> sve_sum r a b = Ok (k a b)).
  { intros a b Ha Hb.
    pose (k' := fun u v => if Req_EM_T u 0 then 0 else if Req_EM_T v 0 then 0 else k u v).
    assert (Ek' : forall u v, u <> 0 -> v <> 0 -> k' u v = k u v).
    { intros u v H1 H2. unfold k'. destruct (Req_EM_T u 0); [lra|]. destruct (Req_EM_T v 0); [lra|]. auto. }
    assert (Cs : forall u v, -1 <= u <= 1 -> -1 <= v <= 1 -> k' (- u) (- v) = k' u v).
    { intros u v _ _. unfold k'. destruct (Req_EM_T (- u) 0), (Req_EM_T u 0); try lra.
      destruct (Req_EM_T (- v) 0), (Req_EM_T v 0); try lra. unfold k. rewrite !Hz.
      destruct (Rlt_dec (- u) 0), (Rlt_dec u 0); try lra; destruct (Rlt_dec (- v) 0), (Rlt_dec v 0); try lra. }
    assert (Aa : Rabs a = x) by (destruct Ha as [-> | ->]; [apply Rabs_pos_eq; lra|rewrite Rabs_Ropp; apply Rabs_pos_eq; lra]).
    assert (Ab : Rabs b = y) by (destruct Hb as [-> | ->]; [apply Rabs_pos_eq; lra|rewrite Rabs_Ropp; apply Rabs_pos_eq; lra]).
    assert (Ra : -1 <= a <= 1) by (destruct Ha; lra). assert (Rb : -1 <= b <= 1) by (destruct Hb; lra).
    assert (Wv : within_at 0 r k' a b).
    { apply (merged_at argsort eps n hx hy even odd Hhx Hhy He Ho Hsort r Hm k' 0 Cs a b Ra Rb).
      - destruct Ha as [-> | ->]; [left; lra|right; rewrite Ropp_involutive; auto].
      - destruct Hb as [-> | ->]; [left; lra|right; rewrite Ropp_involutive; auto].
      - rewrite Aa, Ab. exists e. split; [exact Ee|]. rewrite !Ek' by lra. unfold k. rewrite !Hz.
        destruct (Rlt_dec x 0), (Rlt_dec y 0), (Rlt_dec (- y) 0); try lra.
        match goal with |- Rabs ?t <= 0 => replace t with 0 by lra end. rewrite Rabs_R0. lra.
      - rewrite Aa, Ab. exists o. split; [exact Eo|]. rewrite !Ek' by lra. unfold k. rewrite !Hz.
        destruct (Rlt_dec x 0), (Rlt_dec y 0), (Rlt_dec (- y) 0); try lra.
        match goal with |- Rabs ?t <= 0 => replace t with 0 by lra end. rewrite Rabs_R0. lra. }
    destruct Wv as (v & Ev & Hv). rewrite Ev. f_equal.
    assert (a <> 0 /\ b <> 0) as [Na Nb] by (destruct Ha, Hb; lra). rewrite Ek' in Hv by auto.
    pose proof (Rabs_pos (v - k a b)). assert (Z0 : Rabs (v - k a b) = 0) by lra.
    destruct (Req_dec (v - k a b) 0); [lra|]. exfalso. eapply Rabs_no_R0; eauto. }
  repeat split; rewrite W by auto; f_equal; unfold k; rewrite !Hz;
    destruct (Rlt_dec x 0), (Rlt_dec y 0), (Rlt_dec (- y) 0), (Rlt_dec (- x) 0); lra.
Qed.
End MergeNodes.

(** * Half segments *)
Lemma half_edges_of l : valid_segments l -> half_edges (half l).
Proof.
  intros (Hs & Hh & Hr & _ & h & Hl & H0). set (g := half l) in *.
  assert (Sg : StronglySorted Rlt g) by (apply StronglySorted_filter; auto).
  assert (Z : In 0 g). { apply filter_In. split; [eapply nth_error_In; eauto|apply Rleb_true; lra]. }
  assert (O : In 1 g).
  { apply filter_In. split; [|apply Rleb_true; lra]. apply in_rev. destruct (rev l); inversion Hr. left; auto. }
  assert (P : forall x, In x g -> 0 <= x). { intros x Hx. apply filter_In in Hx as [_ Hx]. apply Rleb_true in Hx. auto. }
  assert (U : forall x, In x g -> x <= 1).
  { intros x Hx. apply filter_In in Hx as [Hx _]. apply in_rev in Hx.
    assert (Sr : StronglySorted Rgt (rev l)) by (apply (StronglySorted_rev Rlt); auto).
    destruct (rev l) as [|z t]; [easy|]. inversion Hr; subst. destruct Hx as [->|Hx]; [lra|].
    apply StronglySorted_inv in Sr as [_ Hf]. rewrite Forall_forall in Hf. specialize (Hf _ Hx). lra. }
  destruct g as [|a t]; [easy|]. assert (a = 0).
  { destruct Z as [|Z]; auto. apply StronglySorted_inv in Sg as [_ Hf]. rewrite Forall_forall in Hf. specialize (Hf _ Z). pose proof (P a (or_introl eq_refl)). lra. }
  subst a. assert (Lt : (1 <= length t)%nat). { destruct t; simpl; [|lia]. destruct O as [O|[]]; lra. }
  split; [split; [simpl; lia|auto]|]. split; [reflexivity|].
  assert (Sr : StronglySorted Rgt (rev (0 :: t))) by (apply (StronglySorted_rev Rlt); auto).
  assert (O' : In 1 (rev (0 :: t))) by (apply -> in_rev; auto).
  destruct (rev (0 :: t)) as [|z w] eqn:Er; [easy|]. cbn. f_equal.
  assert (z <= 1). { apply U. apply in_rev. rewrite Er. left; auto. }
  destruct O' as [|O']; auto. apply StronglySorted_inv in Sr as [_ Hf]. rewrite Forall_forall in Hf. specialize (Hf _ O'). lra.
Qed.

Lemma nth_last (l : list R) : nth (length l - 1) l 0 = last l 0.
Proof.
  induction l as [|a l IH]; [reflexivity|]. destruct l as [|b l]; [reflexivity|].
  change (last (a :: b :: l) 0) with (last (b :: l) 0). rewrite <- IH. simpl. rewrite Nat.sub_0_r. reflexivity.
Qed.

Lemma half_ends h : half_edges h -> nth 0 h 0 = 0 /\ nth (length h - 1) h 0 = 1 /\ hd 0 h = 0 /\ last h 0 = 1.
Proof.
  intros ((Hl & _) & H0 & H1). destruct h as [|a t]; [easy|]. inversion H0; subst. cbn [nth hd]. split; auto.
  assert (E : last (0 :: t) 0 = 1).
  { rewrite <- (rev_involutive (0 :: t)). destruct (rev (0 :: t)) as [|z w]; [easy|]. inversion H1; subst. simpl. rewrite last_last. auto. }
  split; [|auto]. rewrite <- E. apply (nth_last (0 :: t)).
Qed.

(** * The matrix of a symmetrised kernel *)
Lemma reduced_sampled f K k sign Ks q n hx hy gx gy : tfun_ok f -> 0 < k_lambda K ->
  (forall x y, -1 <= x <= 1 -> -1 <= y <= 1 -> has_value f K x y (k x y)) ->
  get_symmetrized K sign = Ok Ks -> gauss_ok n q -> distances_ok q -> half_edges hx -> half_edges hy ->
  piecewise q hx = Ok gx -> piecewise q hy = Ok gy ->
  reduced_matrix f Ks gx gy = Ok (sampled (fun x y => k x y + sign * k x (- y)) gx gy).
Proof.
  intros Hf Hl Hk HKs Hq Hd Hx Hy Ex Ey.
  destruct (half_ends _ Hx) as (X0 & X1 & X2 & X3). destruct (half_ends _ Hy) as (Y0 & Y1 & _).
  pose proof (node_not_edge _ _ _ _ Hq (proj1 Hx) Ex) as Nx. pose proof (node_not_edge _ _ _ _ Hq (proj1 Hy) Ey) as Ny.
  rewrite X0, X1 in Nx. rewrite Y0, Y1 in Ny.
  assert (Hab : ra q <> rb q) by (destruct Hq as (_ & _ & _ & _ & _ & A & B & _); lra).
  destruct (piecewise_distances _ _ _ Hab Hd Ex) as [D1 D2].
  destruct (piecewise_interval _ _ _ 0 (proj1 (proj1 Hx)) Ex) as [I1 I2]. rewrite X2 in I1. rewrite X3 in I2.
  unfold reduced_matrix. rewrite D1, D2, I1, I2.
  replace (map (fun x => x - 0) (rx gx)) with (rx gx).
  2:{ symmetry. rewrite <- (map_id (rx gx)) at 2. apply map_ext. intros; lra. }
  destruct (reduced_elementwise f Ks (rx gx) (rx gy)) as (M & EM & LM & HM).
  { apply Forall_forall. intros x Hxi. specialize (Nx x Hxi). lra. }
  { apply Forall_forall. intros y Hyi. specialize (Ny y Hyi). lra. }
  rewrite EM. f_equal. unfold sampled. apply (nth_ext _ _ [] []); [rewrite map_length; auto|].
  intros i Hi. rewrite LM in Hi.
  destruct (HM i (nth i (rx gx) 0)) as (row & Er & Lr & Hrow); [apply nth_error_nth'; auto|].
  rewrite (nth_error_nth _ _ _ Er), (nth_map_in _ _ _ 0) by auto.
  apply (nth_ext _ _ 0 0); [rewrite map_length; auto|].
  intros j Hj. rewrite Lr in Hj. destruct (Hrow j (nth j (rx gy) 0)) as (v & Ev & Hv); [apply nth_error_nth'; auto|].
  rewrite (nth_error_nth _ _ _ Ev), (nth_map_in _ _ _ 0) by auto.
  assert (Bx : 0 < nth i (rx gx) 0 < 1) by apply (Nx _ (nth_In _ _ Hi)).
  assert (By : 0 < nth j (rx gy) 0 < 1) by apply (Ny _ (nth_In _ _ Hj)).
  set (x := nth i (rx gx) 0) in *. set (y := nth j (rx gy) 0) in *.
  pose proof (symmetrized_value f K sign Ks x y (k x y) (k x (- y)) Hf Hl HKs ltac:(lra) ltac:(lra)
     (Hk x y ltac:(lra) ltac:(lra)) (Hk x (- y) ltac:(lra) ltac:(lra))) as V.
  unfold has_reduced_value in *. rewrite V in Hv. injection Hv as Hv. auto.
Qed.

(** The matrix of a full kernel. *)
Lemma full_edges l : valid_segments l -> edges_ok l /\ nth 0 l 0 = -1 /\ nth (length l - 1) l 0 = 1 /\ hd 0 l = -1 /\ last l 0 = 1.
Proof.
  intros (Hs & Hh & Hr & _ & _). destruct l as [|a t]; [easy|]. inversion Hh; subst.
  assert (E : last (-1 :: t) 0 = 1).
  { rewrite <- (rev_involutive (-1 :: t)). destruct (rev (-1 :: t)) as [|z w]; [easy|]. inversion Hr; subst. simpl. rewrite last_last. auto. }
  split; [split; auto|].
  - destruct t; simpl in *; [lra|lia].
  - cbn [nth hd]. repeat (split; auto). rewrite <- E. apply (nth_last (-1 :: t)).
Qed.

Lemma full_sampled f K k q n gx gy : (forall x y, -1 <= x <= 1 -> -1 <= y <= 1 -> has_value f K x y (k x y)) ->
  gauss_ok n q -> distances_ok q -> piecewise q (segments_x K) = Ok gx -> piecewise q (segments_y K) = Ok gy ->
  kernel_matrix f K gx gy = Ok (sampled k gx gy).
Proof.
  intros Hk Hq Hd Ex Ey. destruct (segments_valid K) as [Vx Vy].
  destruct (full_edges _ Vx) as (Hx & X0 & X1 & X2 & X3). destruct (full_edges _ Vy) as (Hy & Y0 & Y1 & _).
  pose proof (node_not_edge _ _ _ _ Hq Hx Ex) as Nx. pose proof (node_not_edge _ _ _ _ Hq Hy Ey) as Ny.
  rewrite X0, X1 in Nx. rewrite Y0, Y1 in Ny.
  assert (Hab : ra q <> rb q) by (destruct Hq as (_ & _ & _ & _ & _ & A & B & _); lra).
  destruct (piecewise_distances _ _ _ Hab Hd Ex) as [D1 D2].
  destruct (piecewise_interval _ _ _ 0 (proj1 Hx) Ex) as [I1 I2]. rewrite X2 in I1. rewrite X3 in I2.
  unfold kernel_matrix. rewrite D1, D2, I1, I2.
  destruct (call_elementwise f K (rx gx) (rx gy) (Some (map (fun x => x - -1) (rx gx))) (Some (map (fun x => 1 - x) (rx gx)))) as (M & EM & LM & HM).
  { apply Forall_forall. intros x Hxi. specialize (Nx x Hxi). lra. }
  { apply Forall_forall. intros y Hyi. specialize (Ny y Hyi). lra. }
  { right. f_equal. apply map_ext. intros; lra. }
  { right. auto. }
  rewrite EM. f_equal. unfold sampled. apply (nth_ext _ _ [] []); [rewrite map_length; auto|].
  intros i Hi. rewrite LM in Hi.
  destruct (HM i (nth i (rx gx) 0)) as (row & Er & Lr & Hrow); [apply nth_error_nth'; auto|].
  rewrite (nth_error_nth _ _ _ Er), (nth_map_in _ _ _ 0) by auto.
  apply (nth_ext _ _ 0 0); [rewrite map_length; auto|].
  intros j Hj. rewrite Lr in Hj. destruct (Hrow j (nth j (rx gy) 0)) as (v & Ev & Hv); [apply nth_error_nth'; auto|].
  rewrite (nth_error_nth _ _ _ Ev), (nth_map_in _ _ _ 0) by auto.
  assert (Bx : -1 < nth i (rx gx) 0 < 1) by apply (Nx _ (nth_In _ _ Hi)).
  assert (By : -1 < nth j (rx gy) 0 < 1) by apply (Ny _ (nth_In _ _ Hj)).
  set (x := nth i (rx gx) 0) in *. set (y := nth j (rx gy) 0) in *.
  pose proof (Hk x y ltac:(lra) ltac:(lra)) as V.
  unfold has_value in *. rewrite V in Hv. injection Hv as Hv. auto.
Qed.

(** * Structure without exact decompositions *)
Lemma well_post legendre K eps ng S b b' kk r :
  sampling_init legendre K eps ng = Ok S -> gauss_ok (s_n S) (s_rule S) ->
  (2 <= length (s_segs_x S))%nat -> (2 <= length (s_segs_y S))%nat ->
  (let '(us, s, vs) := b in length us = length s /\ length vs = length s /\ nonincreasing s /\ Forall (fun x => 0 <= x) s) ->
  prefix_of kk b b' -> sampling_post S b' = Ok (Some r) ->
  ss r = svals b' /\ sve_on (s_n S) (s_segs_x S) (s_segs_y S) r /\ (forall l f, represents (su r) l f -> 0 < f 1) /\ seps r = Some (s_eps S).
Proof.
  intros HS Hr Hx2 Hy2 Hb Hk Hp. destruct b as [[us s] vs]. destruct Hb as (L1 & L2 & _).
  unfold prefix_of in Hk. cbn [fst snd] in Hk. subst b'.
  assert (L1' : length (firstn kk us) = length (firstn kk s)) by (rewrite !firstn_length; lia).
  assert (L2' : length (firstn kk vs) = length (firstn kk s)) by (rewrite !firstn_length; lia).
  destruct (post_struct _ _ _ _ _ HS Hr Hx2 Hy2 _ _ _ r L1' L2' Hp) as (Fu & Fv & Ku & Kv & Gu & Gv & E & Ee & R1 & sg & L & Fsg & Eu & Ev & Hpos).
  destruct (post_lengths _ _ _ _ _ HS Hr Hx2 Hy2 _ _ _ r L1' L2' Hp) as (M1 & M2 & _).
  split; [exact E|]. split; [repeat (split; [assumption|]); split; congruence|].
  split; [|exact Ee]. intros l f Hf. destruct Fu as (Hg & Hog & Hlg).
  assert (Hl : (l < length (vcols (su r)))%nat) by (exact (in_cols _ _ _ 1 Hg R1 Hf)).
  apply represents_cval in Hf as (c & Ec & Hc); auto; try lia.
  rewrite <- Hc by auto. apply (nth_error_nth _ _ col0) in Ec. rewrite <- Ec. apply Hpos. lia.
Qed.

Lemma on_range n hx hy r : sve_on n hx hy r ->
  gxmin (vgeom (su r)) = hd 0 hx /\ gxmax (vgeom (su r)) = last hx 0 /\
  gxmin (vgeom (sv r)) = hd 0 hy /\ gxmax (vgeom (sv r)) = last hy 0.
Proof.
  intros (Fu & Fv & <- & <- & _). destruct Fu as (Gu & _). destruct Fv as (Gv & _).
  assert (N : forall g, geom_ok g -> gxmin g = hd 0 (gknots g) /\ gxmax g = last (gknots g) 0).
  { intros g Hg. pose proof (g_len g Hg). unfold gxmin, gxmax. split; [destruct (gknots g); reflexivity|].
    rewrite <- nth_last. f_equal. lia. }
  destruct (N _ Gu), (N _ Gv). auto.
Qed.

Lemma sorted_firstn k l : nonincreasing l -> nonincreasing (firstn k l).
Proof. intros H. rewrite <- (firstn_skipn k l) in H. apply StronglySorted_app_inv in H. tauto. Qed.

(** * Truncation *)
Lemma truncate2 {A B} (b1 b2 b1' b2' : block A B) rtol lmax : truncate [b1; b2] rtol lmax = Ok [b1'; b2'] ->
  exists k1 k2, prefix_of k1 b1 b1' /\ prefix_of k2 b2 b2'.
Proof.
  intros H. apply truncate_prefix in H as [H _]. inversion H as [|? ? ? ? (k1 & _ & P1) H1]; subst. inversion H1 as [|? ? ? ? (k2 & _ & P2) _]; subst.
  eauto.
Qed.
Lemma truncate1 {A B} (b1 b1' : block A B) rtol lmax : truncate [b1] rtol lmax = Ok [b1'] -> exists k1, prefix_of k1 b1 b1'.
Proof. intros H. apply truncate_prefix in H as [H _]. inversion H as [|? ? ? ? (k1 & _ & P1) H1]; subst. eauto. Qed.

(** What is dropped without a limit on the number. *)
Lemma dropped_small (blocks out : list usv) c i b b' kk M :
  truncate blocks (Fin c) None = Ok out -> Forall (fun b => nonincreasing (svals b)) blocks ->
  nth_error blocks i = Some b -> nth_error out i = Some b' -> prefix_of kk b b' ->
  (forall x, In x (all_values blocks) -> 0 <= x <= M) -> 
  sumsq (svals b) - sumsq (svals b') <= INR (length (svals b) - length (svals b')) * Rsqr (c * M).
Proof.
  intros Ht Hn Hb Hb' Hk HM.
  assert (Es : svals b' = firstn kk (svals b)) by (unfold prefix_of in Hk; subst b'; reflexivity).
  rewrite Es, sumsq_firstn, firstn_length.
  destruct (truncate_ok _ _ _ _ Ht) as (c' & cut & [Hc' Rc] & _ & _ & _ & _). injection Hc' as <-.
  replace (length (svals b) - Nat.min kk (length (svals b)))%nat with (length (skipn kk (svals b))) by (rewrite skipn_length; lia).
  rewrite sumsq_sumn, <- sumn_const. apply sumn_le. intros j Hj. rewrite skipn_length in Hj. rewrite nth_skipn.
  assert (Hx : nth_error (svals b) (kk + j) = Some (nth (kk + j) (svals b) 0)) by (apply nth_error_nth'; lia).
  set (x := nth (kk + j) (svals b) 0) in *.
  assert (Hin : In x (all_values blocks)).
  { unfold all_values. apply in_flat_map. exists b. split; [eapply nth_error_In; eauto|eapply nth_error_In; exact Hx]. }
  destruct (truncate_sorted _ _ _ _ Ht Hn _ _ _ _ _ Hb Hb' Hx) as [_ Sig].
  assert (Hnone : nth_error (snd (fst b')) (kk + j) = None).
  { apply nth_error_None. change (snd (fst b')) with (svals b'). rewrite Es, firstn_length. lia. }
  rewrite Hnone in Sig. unfold Rsqr.
  assert (0 <= x <= c * M); [|nra]. split; [apply HM; auto|].
  apply Rnot_lt_le. intros Hlt. assert (significant (all_values blocks) c None x); [|apply Sig in H; discriminate].
  split; [|exact I]. intros M' HM' _. pose proof (HM _ HM'). nra.
Qed.

(** Kept values are above the tolerance. *)
Lemma kept_positive (blocks out : list usv) rtol lmax i b b' kk :
  truncate blocks rtol lmax = Ok out -> Forall (fun b => nonincreasing (svals b) /\ Forall (fun x => 0 <= x) (svals b)) blocks ->
  nth_error blocks i = Some b -> nth_error out i = Some b' -> prefix_of kk b b' ->
  Forall (fun x => 0 < x) (svals b').
Proof.
  intros Ht Hn Hb Hb' Hk.
  destruct (truncate_ok _ _ _ _ Ht) as (c & cut & [-> Rc] & _ & Hne & _ & _).
  apply Forall_forall. intros x Hx. apply (In_nth _ _ 0) in Hx as (j & Hj & Ex).
  assert (Es : svals b' = firstn kk (svals b)) by (unfold prefix_of in Hk; subst b'; reflexivity).
  assert (Hjk : (j < kk)%nat /\ (j < length (svals b))%nat). { rewrite Es, firstn_length in Hj. lia. }
  assert (Hxb : nth_error (svals b) j = Some x). { rewrite <- Ex, Es, nth_firstn by lia. apply nth_error_nth'; lia. }
  assert (Hsome : nth_error (snd (fst b')) j = Some x). { rewrite <- Ex. apply nth_error_nth'. exact Hj. }
  assert (Hn' : Forall (fun b => nonincreasing (snd (fst b))) blocks).
  { apply Forall_forall. intros b0 H0. rewrite Forall_forall in Hn. apply (Hn b0 H0). }
  destruct (truncate_sorted _ _ _ _ Ht Hn' _ _ _ _ _ Hb Hb' Hxb) as [_ Sig]. apply Sig in Hsome as [Hs _].
  assert (Hall : forall y, In y (all_values blocks) -> 0 <= y).
  { intros y Hy. unfold all_values in Hy. apply in_flat_map in Hy as (b0 & H0 & Hy). rewrite Forall_forall in Hn. destruct (Hn b0 H0) as [_ Hf].
    rewrite Forall_forall in Hf. apply Hf, Hy. }
  assert (exists M, In M (all_values blocks) /\ forall y, In y (all_values blocks) -> y <= M) as (M & HM & Hmax).
  { clear - Hne. destruct (all_values blocks) as [|a l]; [easy|]. clear Hne. revert a. induction l as [|b l IH]; intros a.
    - exists a. split; [left; auto|]. intros y [->|[]]; lra.
    - destruct (IH b) as (M & HM & Hmax). destruct (Rle_dec a M).
      + exists M. split; [right; auto|]. intros y [->|Hy]; auto.
      + exists a. split; [left; auto|]. intros y [->|Hy]; [lra|]. specialize (Hmax y Hy). lra. }
  specialize (Hs M HM Hmax). pose proof (Hall M HM). nra.
Qed.

(** * Shapes of the matrices *)
Lemma kernel_rect f K gx gy M : kernel_matrix f K gx gy = Ok M -> rectangular (length (rx gx)) (length (rx gy)) M.
Proof.
  unfold kernel_matrix, kernel_call. destruct (check_domain _ _ _ _); [|discriminate]. cbn [bind]. intros [= <-].
  split; [rewrite map_length, seq_length, map_length; auto|]. apply Forall_forall. intros row Hr. apply in_map_iff in Hr as (i & <- & _).
  unfold fins. rewrite !map_length. auto.
Qed.
Lemma reduced_rect f K gx gy M : reduced_matrix f K gx gy = Ok M -> rectangular (length (rx gx)) (length (rx gy)) M.
Proof.
  unfold reduced_matrix, reduced_call. destruct (check_domain _ _ _ _); [|discriminate]. cbn [bind]. intros [= <-].
  split; [rewrite map_length, seq_length, map_length; auto|]. apply Forall_forall. intros row Hr. apply in_map_iff in Hr as (i & <- & _).
  unfold fins. rewrite !map_length. auto.
Qed.
Lemma map2_in {A B C} (g : A -> B -> C) l l' z : In z (map2 g l l') -> exists x y, In x l /\ In y l' /\ z = g x y.
Proof.
  revert l'. induction l as [|a l IH]; intros [|b l'] H; cbn in H; try easy. destruct H as [<-|H].
  - exists a, b. cbn. auto.
  - apply IH in H as (x & y & Hx & Hy & ->). exists x, y. cbn. auto.
Qed.
Lemma sampling_rect legendre K eps ng S A : sampling_init legendre K eps ng = Ok S -> gauss_ok (s_n S) (s_rule S) ->
  (2 <= length (s_segs_x S))%nat -> (2 <= length (s_segs_y S))%nat ->
  (forall gx gy M, s_mat S gx gy = Ok M -> rectangular (length (rx gx)) (length (rx gy)) M) ->
  sampling_matrix S = Ok A -> exists m n, rectangular m n A /\ (0 < m)%nat /\ (0 < n)%nat.
Proof.
  intros HS Hr Hx Hy HM HA. destruct (sizes _ _ _ _ _ HS Hr Hx Hy) as (Z1 & Z2 & Z3 & Z4).
  unfold sampling_matrix in HA. destruct (s_mat S _ _) as [M|] eqn:E; [|discriminate]. cbn [bind] in HA. injection HA as <-.
  destruct (HM _ _ _ E) as [L F]. exists (length (rx (s_gx S))), (length (rx (s_gy S))). split; [split|].
  - rewrite map2_length. unfold sqrtw. rewrite map_length. lia.
  - apply Forall_forall. intros row Hrow. apply map2_in in Hrow as (r0 & w & H0 & _ & ->). rewrite Forall_forall in F. specialize (F _ H0).
    rewrite map2_length. unfold sqrtw. rewrite !map_length. lia.
  - destruct Hr as (Hn & _). rewrite Z1, Z3. split; apply Nat.mul_pos_pos; lia.
Qed.
(** The rank asked for is positive. *)
Definition pos_rank (A : matrix) (h : Z) : Prop := forall m n, rectangular m n A -> (0 < m)%nat -> (0 < n)%nat -> (0 < h)%Z.

(** * compute *)
Section Compute.
Variables (have_xprec have_gejsv : bool) (dd : R) (f : tfun).
Variable legendre : dtype -> nat -> res rule.
Variable run : svd_alg -> matrix -> Z -> usv.
Variable argsort : list R -> list nat.
Notation compute := (compute have_xprec have_gejsv dd f legendre run argsort).

Lemma svd_inv t A h strategy b : svd_compute have_xprec have_gejsv run t A h strategy = Ok b -> exists alg h', b = run alg A h' /\ ((0 < h)%Z -> pos_rank A h').
Proof.
  unfold svd_compute. destruct (svd_dispatch _ _ _ _) as [[alg w]|]; [|discriminate]. cbn [bind]. intros [= <-].
  eexists alg, _. split; [reflexivity|]. intros Hh m n [<- F] Hm Hn. destruct A as [|row A]; [cbn in Hm; lia|].
  inversion F; subst. cbn [length] in *. lia.
Qed.
Lemma svd_well : svd_shaped run -> forall alg A h m n, rectangular m n A -> (0 < m)%nat -> (0 < n)%nat -> pos_rank A h ->
  let '(us, s, vs) := run alg A h in length us = length s /\ length vs = length s /\ nonincreasing s /\ Forall (fun x => 0 <= x) s.
Proof.
  intros Hs alg A h m n Hr Hm Hn Hp. pose proof (Hs alg A h m n Hr Hm Hn (Hp m n Hr Hm Hn)) as H. unfold usv_shaped in H.
  destruct (run alg A h) as [[us s] vs]. tauto.
Qed.

Lemma compute_centro_inv K eps cutoff n_sv ng work st svds r :
  compute K eps cutoff n_sv ng work st svds = Ok (Some r) -> st <> Some SampleStrat ->
  exists t safe Ke Ko even odd Ae Ao alge he algo ho rtol be' bo' re ro,
    get_symmetrized K 1 = Ok Ke /\ get_symmetrized K (-1) = Ok Ko /\
    sampling_init (legendre t) (reduced_kern f Ke safe) safe ng = Ok even /\
    sampling_init (legendre t) (reduced_kern f Ko safe) safe ng = Ok odd /\
    sampling_matrix even = Ok Ae /\ sampling_matrix odd = Ok Ao /\
    (cutoff = None /\ rtol = Fin (default_cutoff dd t) \/ cutoff = Some rtol) /\
    truncate [run alge Ae he; run algo Ao ho] rtol n_sv = Ok [be'; bo'] /\
    sampling_post even be' = Ok (Some re) /\ sampling_post odd bo' = Ok (Some ro) /\
    merge argsort safe (segments_x K) (segments_y K) re ro = Ok r /\ pos_rank Ae he /\ pos_rank Ao ho /\
    exists strategy w, safe_eps have_xprec dd eps work svds = (safe, t, strategy, w).
Proof.
  unfold Compute.compute. intros H Hst. destruct (safe_eps _ _ _ _ _) as [[[safe t] strategy] w].
  set (rtol := match cutoff with None => _ | Some c => c end) in H.
  assert (Hc : cutoff = None /\ rtol = Fin (default_cutoff dd t) \/ cutoff = Some rtol) by (unfold rtol; destruct cutoff; auto).
  assert (H' : (do Ke <- get_symmetrized K 1;
      do even <- sampling_init (legendre t) (reduced_kern f Ke safe) safe ng;
      do Ko <- get_symmetrized K (-1);
      do odd <- sampling_init (legendre t) (reduced_kern f Ko safe) safe ng;
      do Ae <- sampling_matrix even;
      do be <- svd_compute have_xprec have_gejsv run t Ae (Z.max (s_hint even) (s_hint odd)) strategy;
      do Ao <- sampling_matrix odd;
      do bo <- svd_compute have_xprec have_gejsv run t Ao (Z.max (s_hint even) (s_hint odd)) strategy;
      do cut <- truncate [be; bo] rtol n_sv;
      match cut with
      | [be; bo] =>
          do re <- sampling_post even be;
          do ro <- sampling_post odd bo;
          match re, ro with
          | Some re, Some ro => do r <- merge argsort safe (segments_x K) (segments_y K) re ro; Ok (Some r)
          | _, _ => Ok None
          end
      | _ => Raise ValueError
      end) = Ok (Some r)) by (destruct st as [[]|]; try congruence; exact H).
  clear H. rename H' into H.
  destruct (get_symmetrized K 1) as [Ke|] eqn:E1; [|discriminate]. cbn [bind] in H.
  destruct (sampling_init (legendre t) (reduced_kern f Ke safe) safe ng) as [even|] eqn:E2; [|discriminate]. cbn [bind] in H.
  destruct (get_symmetrized K (-1)) as [Ko|] eqn:E3; [|discriminate]. cbn [bind] in H.
  destruct (sampling_init (legendre t) (reduced_kern f Ko safe) safe ng) as [odd|] eqn:E4; [|discriminate]. cbn [bind] in H.
  destruct (sampling_matrix even) as [Ae|] eqn:E5; [|discriminate]. cbn [bind] in H.
  destruct (svd_compute _ _ _ _ Ae _ _) as [be|] eqn:E6; [|discriminate]. cbn [bind] in H.
  destruct (sampling_matrix odd) as [Ao|] eqn:E7; [|discriminate]. cbn [bind] in H.
  destruct (svd_compute _ _ _ _ Ao _ _) as [bo|] eqn:E8; [|discriminate]. cbn [bind] in H.
  assert (Hh : (0 < Z.max (s_hint even) (s_hint odd))%Z).
  { apply sampling_init_inv in E2 as (_ & _ & _ & _ & _ & _ & _ & Hh & _). cbn [reduced_kern sk_nsvals] in Hh. rewrite Hh.
    pose proof (nsvals_hint (rinner Ke)). pose proof (reduced_hint (rinner Ke)). lia. }
  apply svd_inv in E6 as (alge & he & -> & Pe). apply svd_inv in E8 as (algo & ho & -> & Po).
  destruct (truncate _ _ _) as [cut|] eqn:E9; [|discriminate]. cbn [bind] in H.
  destruct cut as [|be' [|bo' [|]]]; try discriminate.
  destruct (sampling_post even be') as [re|] eqn:E10; [|discriminate]. cbn [bind] in H.
  destruct (sampling_post odd bo') as [ro|] eqn:E11; [|discriminate]. cbn [bind] in H.
  destruct re as [re|], ro as [ro|]; try discriminate.
  destruct (merge _ _ _ _ _ _) as [r'|] eqn:E12; [|discriminate]. cbn [bind] in H. injection H as ->.
  exists t, safe, Ke, Ko, even, odd, Ae, Ao, alge, he, algo, ho, rtol, be', bo', re, ro.
  do 11 (split; [first [assumption|reflexivity]|]). split; [apply Pe, Hh|]. split; [apply Po, Hh|]. eauto.
Qed.

Lemma compute_sample_inv K eps cutoff n_sv ng work svds r :
  compute K eps cutoff n_sv ng work (Some SampleStrat) svds = Ok (Some r) ->
  exists t safe S A alg h rtol b',
    sampling_init (legendre t) (full_kern f K safe) safe ng = Ok S /\
    sampling_matrix S = Ok A /\ (cutoff = None /\ rtol = Fin (default_cutoff dd t) \/ cutoff = Some rtol) /\
    truncate [run alg A h] rtol n_sv = Ok [b'] /\ sampling_post S b' = Ok (Some r) /\ pos_rank A h /\
    exists strategy w, safe_eps have_xprec dd eps work svds = (safe, t, strategy, w).
Proof.
  unfold Compute.compute. intros H. destruct (safe_eps _ _ _ _ _) as [[[safe t] strategy] w].
  set (rtol := match cutoff with None => _ | Some c => c end) in H.
  assert (Hc : cutoff = None /\ rtol = Fin (default_cutoff dd t) \/ cutoff = Some rtol) by (unfold rtol; destruct cutoff; auto).
  destruct (sampling_init (legendre t) (full_kern f K safe) safe ng) as [S|] eqn:E2; [|discriminate]. cbn [bind] in H.
  destruct (sampling_matrix S) as [A|] eqn:E5; [|discriminate]. cbn [bind] in H.
  destruct (svd_compute _ _ _ _ A _ _) as [b|] eqn:E6; [|discriminate]. cbn [bind] in H.
  assert (Hh : (0 < s_hint S)%Z).
  { apply sampling_init_inv in E2 as (_ & _ & _ & _ & _ & _ & _ & Hh & _). cbn [full_kern sk_nsvals] in Hh. rewrite Hh.
    pose proof (nsvals_hint K). lia. }
  apply svd_inv in E6 as (alg & h & -> & P6).
  destruct (truncate _ _ _) as [cut|] eqn:E9; [|discriminate]. cbn [bind] in H.
  destruct cut as [|b' [|]]; try discriminate.
  exists t, safe, S, A, alg, h, rtol, b'.
  do 5 (split; [first [assumption|reflexivity]|]). split; [apply P6, Hh|]. eauto.
Qed.

Hypothesis Hleg : forall t n q, legendre t n = Ok q -> gauss_ok n q /\ distances_ok q.
Hypothesis Hsort : forall s, sorts s (argsort s).

(** Two parts of the centrosymmetric strategy: segments. *)
Lemma reduced_segs K sg Ks safe t ng S : get_symmetrized K sg = Ok Ks ->
  sampling_init (legendre t) (reduced_kern f Ks safe) safe ng = Ok S ->
  s_segs_x S = half (segments_x K) /\ s_segs_y S = half (segments_y K) /\
  half_edges (half (segments_x K)) /\ half_edges (half (segments_y K)) /\
  mirrored (half (segments_x K)) = segments_x K /\ mirrored (half (segments_y K)) = segments_y K /\
  legendre t (s_n S) = Ok (s_rule S) /\ gauss_ok (s_n S) (s_rule S) /\ distances_ok (s_rule S) /\
  piecewise (s_rule S) (half (segments_x K)) = Ok (s_gx S) /\ piecewise (s_rule S) (half (segments_y K)) = Ok (s_gy S) /\
  s_mat S = reduced_matrix f Ks /\ s_eps S = safe /\ s_n S = match ng with None => hint_ngauss safe | Some n => n end.
Proof.
  intros HK HS. apply sampling_init_inv in HS as (A & B & C & D & E & F & G & _ & I).
  destruct (reduced_segments K sg Ks HK) as (hx & hy & R1 & R2 & R3 & R4 & R5 & R6).
  cbn [reduced_kern sk_segs_x sk_segs_y sk_matrix sk_ngauss] in *.
  assert (X : s_segs_x S = half (segments_x K)) by (unfold half; congruence).
  assert (Y : s_segs_y S = half (segments_y K)) by (unfold half; congruence).
  destruct (segments_valid K) as [Vx Vy]. destruct (Hleg _ _ _ A) as [Q1 Q2].
  rewrite X in D. rewrite Y in E.
  repeat (split; [solve [auto | apply half_edges_of; auto | unfold half; congruence]|]). auto.
Qed.

Section Centro.
Variables (K : kernel) (eps cutoff : option xr) (n_sv : option pynum) (ng : option nat) (work : option dtype) (st : option strat) (svds : option string) (r : sve_result).
Hypothesis Hc : compute K eps cutoff n_sv ng work st svds = Ok (Some r).
Hypothesis Hst : st <> Some SampleStrat.

Lemma error_centro k : tfun_ok f -> 0 < k_lambda K ->
  (forall x y, -1 <= x <= 1 -> -1 <= y <= 1 -> has_value f K x y (k x y)) ->
  exists t n q gx gy alge he algo ho,
    legendre t n = Ok q /\ (forall m, ng = Some m -> n = m) /\ piecewise q (half (segments_x K)) = Ok gx /\ piecewise q (half (segments_y K)) = Ok gy /\
    let Ae := weighted (fun x y => k x y + k x (- y)) gx gy in
    let Ao := weighted (fun x y => k x y - k x (- y)) gx gy in
    let even := run alge Ae he in
    let odd := run algo Ao ho in
    exact_svd (length (rx gx)) (length (rx gy)) Ae even -> exact_svd (length (rx gx)) (length (rx gy)) Ao odd ->
    exists E, (forall x y, -1 <= x <= 1 -> -1 <= y <= 1 -> sve_sum r x y = Ok (E x y)) /\
      quad2 gx gy (fun x y => Rsqr (k x y - E x y) + Rsqr (k (- x) y - E (- x) y) +
                              Rsqr (k x (- y) - E x (- y)) + Rsqr (k (- x) (- y) - E (- x) (- y))) =
        sumsq (svals even ++ svals odd) - sumsq (ss r) /\
      (exists i j, Permutation (ss r) (firstn i (svals even) ++ firstn j (svals odd))) /\
      (forall c M, n_sv = None -> cutoff = Some (Fin c) -> nonincreasing (svals even) -> nonincreasing (svals odd) ->
         (forall x, In x (svals even ++ svals odd) -> 0 <= x <= M) ->
         sumsq (svals even ++ svals odd) - sumsq (ss r) <=
           INR (length (svals even ++ svals odd) - length (ss r)) * Rsqr (c * M)) /\
      orthonormal_functions (su r) /\ orthonormal_functions (sv r) /\
      (forall l g, represents (su r) l g -> 0 < g 1).
Proof.
  intros Hf Hl Hk.
  destruct (compute_centro_inv _ _ _ _ _ _ _ _ _ Hc Hst) as
    (t & safe & Ke & Ko & even & odd & Ae & Ao & alge & he & algo & ho & rtol & be' & bo' & re & ro & HKe & HKo & Se & So & Me & Mo & Hrt & Ht & Pe & Po & Hm & Qe & Qo & strategy & wn & Hsafe).
  destruct (reduced_segs _ _ _ _ _ _ _ HKe Se) as (X1 & Y1 & Hx & Hy & Mx & My & L1 & G1 & D1 & Gx1 & Gy1 & M1 & E1 & N1).
  destruct (reduced_segs _ _ _ _ _ _ _ HKo So) as (X2 & Y2 & _ & _ & _ & _ & L2 & G2 & D2 & Gx2 & Gy2 & M2 & E2 & N2).
  assert (Nn : s_n odd = s_n even) by congruence.
  assert (Rr : s_rule odd = s_rule even). { rewrite Nn in L2. rewrite L1 in L2. congruence. }
  assert (Gx : s_gx odd = s_gx even). { rewrite Rr, Gx1 in Gx2. congruence. }
  assert (Gy : s_gy odd = s_gy even). { rewrite Rr, Gy1 in Gy2. congruence. }
  exists t, (s_n even), (s_rule even), (s_gx even), (s_gy even), alge, he, algo, ho.
  split; [exact L1|]. split; [intros m ->; exact N1|]. split; [exact Gx1|]. split; [exact Gy1|]. cbv zeta.
  pose (ke := fun x y => k x y + k x (- y)). pose (ko := fun x y => k x y - k x (- y)).
  change (fun x y => k x y + k x (- y)) with ke. change (fun x y => k x y - k x (- y)) with ko.
  assert (We : weighted (fun x y => k x y + 1 * k x (- y)) (s_gx even) (s_gy even) = weighted ke (s_gx even) (s_gy even)).
  { unfold weighted. apply map2_ext. intros x w. apply map2_ext. intros y v. unfold ke. ring. }
  assert (Wo : weighted (fun x y => k x y + -1 * k x (- y)) (s_gx even) (s_gy even) = weighted ko (s_gx even) (s_gy even)).
  { unfold weighted. apply map2_ext. intros x w. apply map2_ext. intros y v. unfold ko. ring. }
  assert (Ee : Ae = weighted ke (s_gx even) (s_gy even)).
  { rewrite (matrix_weighted even (fun x y => k x y + 1 * k x (- y))) in Me.
    - rewrite We in Me. congruence.
    - rewrite M1. exact (reduced_sampled f K k 1 Ke _ _ _ _ _ _ Hf Hl Hk HKe G1 D1 Hx Hy Gx1 Gy1). }
  assert (Eo : Ao = weighted ko (s_gx even) (s_gy even)).
  { rewrite (matrix_weighted odd (fun x y => k x y + -1 * k x (- y))) in Mo.
    - rewrite Gx, Gy, Wo in Mo. congruence.
    - rewrite M2. exact (reduced_sampled f K k (-1) Ko _ _ _ _ _ _ Hf Hl Hk HKo G2 D2 Hx Hy Gx2 Gy2). }
  subst Ae Ao. intros Hse Hso.
  destruct (truncate2 _ _ _ _ _ _ Ht) as (i & j & Pi & Pj).
  assert (Lx : (2 <= length (s_segs_x even))%nat) by (rewrite X1; apply Hx).
  assert (Ly : (2 <= length (s_segs_y even))%nat) by (rewrite Y1; apply Hy).
  assert (Lx' : (2 <= length (s_segs_x odd))%nat) by (rewrite X2; apply Hx).
  assert (Ly' : (2 <= length (s_segs_y odd))%nat) by (rewrite Y2; apply Hy).
  pose proof Hso as Hso'. rewrite <- Gx, <- Gy in Hso'.
  destruct (block_post _ _ _ _ even ke _ be' i re Se G1 Lx Ly Hse Pi Pe) as (V1 & S1 & On1 & _ & _ & Ou1 & Ov1 & P1).
  rewrite Gx, Gy in Hso'. pose proof Hso as Hso2. rewrite <- Gx, <- Gy in Hso2 at 1.
  assert (Hso3 : exact_svd (length (rx (s_gx odd))) (length (rx (s_gy odd))) (weighted ko (s_gx odd) (s_gy odd)) (run algo (weighted ko (s_gx even) (s_gy even)) ho)) by (rewrite Gx, Gy; exact Hso).
  destruct (block_post _ _ _ _ odd ko _ bo' j ro So G2 Lx' Ly' Hso3 Pj Po) as (V2 & S2 & On2 & _ & _ & Ou2 & Ov2 & P2).
  rewrite X1, Y1 in On1. rewrite X2, Y2, Nn in On2.
  rewrite <- Mx, <- My in Hm. pose proof (Hsort (ss re ++ ss ro)) as Hs.
  destruct (merged_sorted argsort safe (s_n even) _ _ re ro Hx Hy On1 On2 Hs r Hm) as [_ Perm].
  pose proof (merged argsort safe (s_n even) _ _ re ro Hx Hy On1 On2 Hs r Hm) as (Fu & Fv & _).
  destruct (lens argsort safe (s_n even) _ _ re ro Hx Hy On1 On2 Hs r Hm) as (Ls & Lu & Lv).
  destruct (range_u argsort safe (s_n even) _ _ re ro Hx Hy On1 On2 Hs r Hm) as [Ru1 Ru2].
  destruct (range_v argsort safe (s_n even) _ _ re ro Hx Hy On1 On2 Hs r Hm) as [Rv1 Rv2].
  assert (Hval : forall x y, -1 <= x <= 1 -> -1 <= y <= 1 -> sve_sum r x y = Ok (expand r x y)).
  { intros x y Ax Ay. apply sve_sum_ok; auto; try congruence; lra. }
  exists (expand r). split; [exact Hval|].
  destruct (half_ends _ Hx) as (X0 & X3 & _). destruct (half_ends _ Hy) as (Y0 & Y3 & _).
  pose proof (node_not_edge _ _ _ _ G1 (proj1 Hx) Gx1) as Nx. pose proof (node_not_edge _ _ _ _ G1 (proj1 Hy) Gy1) as Ny.
  rewrite X0, X3 in Nx. rewrite Y0, Y3 in Ny.
  assert (Val1 : forall x y, 0 <= x <= 1 -> 0 <= y <= 1 -> sve_sum re x y = Ok (expand re x y)).
  { intros x y Ax Ay. pose proof On1 as (A1 & A2 & A3 & A4 & A5 & A6 & A7 & A8).
    destruct (zero_u (s_n even) _ _ re Hx On1) as (_ & Z1 & Z2).
    destruct (zero_v (s_n even) _ _ re Hy On1) as (_ & Z3 & Z4).
    apply sve_sum_ok; auto; rewrite ?Z1, ?Z2, ?Z3, ?Z4; lra. }
  assert (Val2 : forall x y, 0 <= x <= 1 -> 0 <= y <= 1 -> sve_sum ro x y = Ok (expand ro x y)).
  { intros x y Ax Ay. pose proof On2 as (A1 & A2 & A3 & A4 & A5 & A6 & A7 & A8).
    destruct (zero_u (s_n even) _ _ ro Hx On2) as (_ & Z1 & Z2).
    destruct (zero_v (s_n even) _ _ ro Hy On2) as (_ & Z3 & Z4).
    apply sve_sum_ok; auto; rewrite ?Z1, ?Z2, ?Z3, ?Z4; lra. }
  split; [|split; [|split; [|split; [|split]]]].
  - assert (B1 : quad2 (s_gx even) (s_gy even) (fun x y => Rsqr (ke x y - expand re x y)) = sumsq (svals (run alge (weighted ke (s_gx even) (s_gy even)) he)) - sumsq (svals be')).
    { apply (block_error _ _ _ _ even ke _ be' i re Se G1 Lx Ly Hse Pi Pe). intros x y Ix Iy. pose proof (Nx x Ix). pose proof (Ny y Iy). apply Val1; lra. }
    assert (B2 : quad2 (s_gx even) (s_gy even) (fun x y => Rsqr (ko x y - expand ro x y)) = sumsq (svals (run algo (weighted ko (s_gx even) (s_gy even)) ho)) - sumsq (svals bo')).
    { rewrite <- Gx at 1. rewrite <- Gy at 1.
      apply (block_error _ _ _ _ odd ko _ bo' j ro So G2 Lx' Ly' Hso3 Pj Po). rewrite Gx, Gy. intros x y Ix Iy. pose proof (Nx x Ix). pose proof (Ny y Iy). apply Val2; lra. }
    rewrite (sumsq_perm _ _ Perm), !sumsq_app, S1, S2.
    match goal with |- _ = ?a + ?b - (?c + ?d) => replace (a + b - (c + d)) with ((a - c) + (b - d)) by ring end.
    rewrite <- B1, <- B2. clear B1 B2.
    destruct (sizes _ _ _ _ _ Se G1 Lx Ly) as (Z1 & Z2 & Z3 & Z4).
    rewrite !(quad2_sumn _ _ _ _ _ Z1 Z2 Z3 Z4). rewrite <- sumn_plus. apply sumn_ext. intros p Hp. rewrite <- sumn_plus. apply sumn_ext. intros q Hq.
    assert (Ix : In (nth p (rx (s_gx even)) 0) (rx (s_gx even))) by (apply nth_In; lia).
    assert (Iy : In (nth q (rx (s_gy even)) 0) (rx (s_gy even))) by (apply nth_In; lia).
    set (x := nth p (rx (s_gx even)) 0) in *. set (y := nth q (rx (s_gy even)) 0) in *.
    destruct (Nx x Ix) as [Kx Bx]. destruct (Ny y Iy) as [Ky By].
    destruct (node_value argsort safe (s_n even) _ _ re ro r Hx Hy On1 On2 Hs Hm x y _ _ Bx By Kx Ky (Val1 x y ltac:(lra) ltac:(lra)) (Val2 x y ltac:(lra) ltac:(lra))) as (W1 & W2 & W3 & W4).
    rewrite Hval in W1, W2, W3, W4 by lra. injection W1 as W1. injection W2 as W2. injection W3 as W3. injection W4 as W4.
    rewrite W1, W2, W3, W4.
    assert (Cs : forall x y, -1 <= x <= 1 -> -1 <= y <= 1 -> k (- x) (- y) = k x y).
    { intros x' y' Hx' Hy'. pose proof (Hk x' y' Hx' Hy') as Va. apply (centrosymmetric f K x' y' _ Hf Hl) in Va.
      pose proof (Hk (- x') (- y') ltac:(lra) ltac:(lra)) as Vb. unfold has_value in Va, Vb. rewrite Va in Vb. injection Vb as Vb. auto. }
    assert (C2 : k (- x) y = k x (- y)) by (rewrite <- (Cs x (- y)), Ropp_involutive by lra; auto).
    rewrite C2, (Cs x y) by lra. unfold ke, ko, Rsqr. field.
  - exists i, j. rewrite <- V1, <- V2, <- S1, <- S2. exact Perm.
  - intros c M -> -> Ne No HM. destruct Hrt as [[? _]|Hrt]; [discriminate|]. injection Hrt as <-.
    rewrite (sumsq_perm _ _ Perm), (Permutation_length Perm), !sumsq_app, !app_length, S1, S2.
    assert (HM' : forall x, In x (all_values [run alge (weighted ke (s_gx even) (s_gy even)) he; run algo (weighted ko (s_gx even) (s_gy even)) ho]) -> 0 <= x <= M).
    { unfold all_values. cbn [flat_map]. rewrite app_nil_r. exact HM. }
    assert (Hni : Forall (fun b : usv => nonincreasing (svals b)) [run alge (weighted ke (s_gx even) (s_gy even)) he; run algo (weighted ko (s_gx even) (s_gy even)) ho]) by auto.
    pose proof (dropped_small _ _ c 0 _ be' i M Ht Hni eq_refl eq_refl Pi HM') as D3.
    pose proof (dropped_small _ _ c 1 _ bo' j M Ht Hni eq_refl eq_refl Pj HM') as D4.
    assert (length (svals be') <= length (svals (run alge (weighted ke (s_gx even) (s_gy even)) he)))%nat by (rewrite V1, firstn_length; lia).
    assert (length (svals bo') <= length (svals (run algo (weighted ko (s_gx even) (s_gy even)) ho)))%nat by (rewrite V2, firstn_length; lia).
    rewrite minus_INR in D3, D4 by auto. rewrite minus_INR by lia. rewrite !plus_INR. lra.
  - exact (merged_orthonormal_u argsort safe (s_n even) _ _ re ro Hx Hy On1 On2 Hs r Hm Ou1 Ou2).
  - exact (merged_orthonormal_v argsort safe (s_n even) _ _ re ro Hx Hy On1 On2 Hs r Hm Ov1 Ov2).
  - exact (merged_positive argsort safe (s_n even) _ _ re ro Hx Hy On1 On2 Hs r Hm P1 P2).
Qed.

(** The result is well formed. *)
Lemma wellformed_centro : svd_shaped run ->
  nonincreasing (ss r) /\ Forall (fun x => 0 < x) (ss r) /\ within (length (ss r)) n_sv /\
  (exists n, sve_on n (segments_x K) (segments_y K) r /\ forall m, ng = Some m -> n = m) /\
  (exists e t strategy w, safe_eps have_xprec dd eps work svds = (e, t, strategy, w) /\ seps r = Some e) /\
  (forall l g, represents (su r) l g -> 0 < g 1) /\
  (forall l p q, nth_error (vcols (su r)) l = Some p -> nth_error (vcols (sv r)) l = Some q ->
    (csym p = 1 \/ csym p = -1) /\ csym q = csym p /\
    has_parity (vgeom (su r)) p (csym p) /\ has_parity (vgeom (sv r)) q (csym q)).
Proof.
  intros Hrun.
  destruct (compute_centro_inv _ _ _ _ _ _ _ _ _ Hc Hst) as
    (t & safe & Ke & Ko & even & odd & Ae & Ao & alge & he & algo & ho & rtol & be' & bo' & re & ro & HKe & HKo & Se & So & Me & Mo & Hrt & Ht & Pe & Po & Hm & Qe & Qo & strategy & wn & Hsafe).
  destruct (reduced_segs _ _ _ _ _ _ _ HKe Se) as (X1 & Y1 & Hx & Hy & Mx & My & L1 & G1 & D1 & Gx1 & Gy1 & M1 & E1 & N1).
  destruct (reduced_segs _ _ _ _ _ _ _ HKo So) as (X2 & Y2 & _ & _ & _ & _ & L2 & G2 & D2 & Gx2 & Gy2 & M2 & E2 & N2).
  assert (Nn : s_n odd = s_n even) by congruence.
  destruct (truncate2 _ _ _ _ _ _ Ht) as (i & j & Pi & Pj).
  assert (Lx : (2 <= length (s_segs_x even))%nat) by (rewrite X1; apply Hx).
  assert (Ly : (2 <= length (s_segs_y even))%nat) by (rewrite Y1; apply Hy).
  assert (Lx' : (2 <= length (s_segs_x odd))%nat) by (rewrite X2; apply Hx).
  assert (Ly' : (2 <= length (s_segs_y odd))%nat) by (rewrite Y2; apply Hy).
  destruct (sampling_rect _ _ _ _ _ _ Se G1 Lx Ly ltac:(rewrite M1; exact (reduced_rect f Ke)) Me) as (m1 & n1 & T1 & T2 & T3).
  destruct (sampling_rect _ _ _ _ _ _ So G2 Lx' Ly' ltac:(rewrite M2; exact (reduced_rect f Ko)) Mo) as (m2 & n2 & T4 & T5 & T6).
  pose proof (svd_well Hrun alge Ae he _ _ T1 T2 T3 Qe) as R1. pose proof (svd_well Hrun algo Ao ho _ _ T4 T5 T6 Qo) as R2.
  assert (Hns : Forall (fun b : usv => nonincreasing (svals b) /\ Forall (fun x => 0 <= x) (svals b)) [run alge Ae he; run algo Ao ho]).
  { repeat constructor; [destruct (run alge Ae he) as [[a b] c]|destruct (run alge Ae he) as [[a b] c]|destruct (run algo Ao ho) as [[a b] c]|destruct (run algo Ao ho) as [[a b] c]]; tauto. }
  pose proof (kept_positive _ _ _ _ 0 _ be' i Ht Hns eq_refl eq_refl Pi) as Ke'.
  pose proof (kept_positive _ _ _ _ 1 _ bo' j Ht Hns eq_refl eq_refl Pj) as Ko'.
  destruct (well_post _ _ _ _ _ _ _ _ _ Se G1 Lx Ly R1 Pi Pe) as (S1 & On1 & P1 & _).
  destruct (well_post _ _ _ _ _ _ _ _ _ So G2 Lx' Ly' R2 Pj Po) as (S2 & On2 & P2 & _).
  rewrite X1, Y1 in On1. rewrite X2, Y2, Nn in On2.
  rewrite <- Mx, <- My in Hm. pose proof (Hsort (ss re ++ ss ro)) as Hs.
  destruct (merged_sorted argsort safe (s_n even) _ _ re ro Hx Hy On1 On2 Hs r Hm) as [Ni Perm].
  assert (Pr := truncate_prefix _ _ _ _ Ht). destruct Pr as [_ Hw]. unfold all_values in Hw. cbn [flat_map] in Hw. rewrite app_nil_r in Hw.
  destruct (merge_ok argsort safe (s_n even) _ _ re ro Hx Hy On1 On2 Hs) as (r' & G & H & Hm' & _ & _ & _ & _ & _ & _ & _ & _ & Hse & _). rewrite Hm in Hm'. injection Hm' as <-.
  split; [exact Ni|]. split; [|split; [|split; [|split; [|split]]]].
  - apply (Permutation_Forall (Permutation_sym Perm)). rewrite S1, S2. apply Forall_app. auto.
  - rewrite (Permutation_length Perm), app_length, S1, S2. rewrite app_length in Hw. exact Hw.
  - exists (s_n even). split; [|intros m ->; exact N1]. rewrite <- Mx, <- My.
    destruct (merged argsort safe (s_n even) _ _ re ro Hx Hy On1 On2 Hs r Hm) as (Fu & Fv & K1 & K2 & Gl1 & Gl2 & _).
    destruct (lens argsort safe (s_n even) _ _ re ro Hx Hy On1 On2 Hs r Hm) as (Ls & Lu & Lv).
    pose proof On1 as (_ & _ & A3 & A4 & A5 & A6 & _). repeat split; try congruence; try apply Fu; try apply Fv.
  - exists safe, t, strategy, wn. auto.
  - exact (merged_positive argsort safe (s_n even) _ _ re ro Hx Hy On1 On2 Hs r Hm P1 P2).
  - exact (merged_parity argsort safe (s_n even) _ _ re ro Hx Hy On1 On2 Hs r Hm).
Qed.
End Centro.

Section Sample.
Variables (K : kernel) (eps cutoff : option xr) (n_sv : option pynum) (ng : option nat) (work : option dtype) (svds : option string) (r : sve_result).
Hypothesis Hc : compute K eps cutoff n_sv ng work (Some SampleStrat) svds = Ok (Some r).

Lemma full_segs safe t S : sampling_init (legendre t) (full_kern f K safe) safe ng = Ok S ->
  s_segs_x S = segments_x K /\ s_segs_y S = segments_y K /\ edges_ok (segments_x K) /\ edges_ok (segments_y K) /\
  legendre t (s_n S) = Ok (s_rule S) /\ gauss_ok (s_n S) (s_rule S) /\ distances_ok (s_rule S) /\
  piecewise (s_rule S) (segments_x K) = Ok (s_gx S) /\ piecewise (s_rule S) (segments_y K) = Ok (s_gy S) /\
  s_mat S = kernel_matrix f K /\ s_eps S = safe /\ s_n S = match ng with None => hint_ngauss safe | Some n => n end.
Proof.
  intros HS. apply sampling_init_inv in HS as (A & B & C & D & E & F & G & _ & I).
  cbn [full_kern sk_segs_x sk_segs_y sk_matrix sk_ngauss] in *.
  assert (X : s_segs_x S = segments_x K) by congruence. assert (Y : s_segs_y S = segments_y K) by congruence.
  destruct (segments_valid K) as [Vx Vy]. destruct (Hleg _ _ _ A) as [Q1 Q2].
  rewrite X in D. rewrite Y in E.
  repeat (split; [solve [auto | apply full_edges; auto]|]). auto.
Qed.

Lemma error_sample k :
  (forall x y, -1 <= x <= 1 -> -1 <= y <= 1 -> has_value f K x y (k x y)) ->
  exists t n q gx gy alg h,
    legendre t n = Ok q /\ (forall m, ng = Some m -> n = m) /\ piecewise q (segments_x K) = Ok gx /\ piecewise q (segments_y K) = Ok gy /\
    let A := weighted k gx gy in
    let b := run alg A h in
    exact_svd (length (rx gx)) (length (rx gy)) A b ->
    exists E, (forall x y, -1 <= x <= 1 -> -1 <= y <= 1 -> sve_sum r x y = Ok (E x y)) /\
      quad2 gx gy (fun x y => Rsqr (k x y - E x y)) = sumsq (svals b) - sumsq (ss r) /\
      (exists i, ss r = firstn i (svals b)) /\
      (forall c M, n_sv = None -> cutoff = Some (Fin c) -> nonincreasing (svals b) ->
         (forall x, In x (svals b) -> 0 <= x <= M) ->
         sumsq (svals b) - sumsq (ss r) <= INR (length (svals b) - length (ss r)) * Rsqr (c * M)) /\
      orthonormal_functions (su r) /\ orthonormal_functions (sv r) /\
      (forall l g, represents (su r) l g -> 0 < g 1).
Proof.
  intros Hk.
  destruct (compute_sample_inv _ _ _ _ _ _ _ _ Hc) as (t & safe & S & A & alg & h & rtol & b' & HS & HA & Hrt & Ht & Hp & Qp & strategy & wn & Hsafe).
  destruct (full_segs _ _ _ HS) as (X & Y & Ex & Ey & L & G & D & Px & Py & M & Es & N).
  exists t, (s_n S), (s_rule S), (s_gx S), (s_gy S), alg, h. split; [exact L|]. split; [intros m ->; exact N|]. split; [exact Px|]. split; [exact Py|]. cbv zeta.
  rewrite (matrix_weighted S k) in HA by (rewrite M; exact (full_sampled f K k _ _ _ _ Hk G D Px Py)). injection HA as <-.
  intros Hs. destruct (truncate1 _ _ _ _ Ht) as (i & Pi).
  assert (Lx : (2 <= length (s_segs_x S))%nat) by (rewrite X; apply Ex).
  assert (Ly : (2 <= length (s_segs_y S))%nat) by (rewrite Y; apply Ey).
  destruct (block_post _ _ _ _ S k _ b' i r HS G Lx Ly Hs Pi Hp) as (V & Sr & On & _ & _ & Ou & Ov & P).
  destruct (segments_valid K) as [Vx Vy]. destruct (full_edges _ Vx) as (_ & X0 & X1 & X2 & X3). destruct (full_edges _ Vy) as (_ & Y0 & Y1 & Y2 & Y3).
  pose proof (node_not_edge _ _ _ _ G Ex Px) as Nx. pose proof (node_not_edge _ _ _ _ G Ey Py) as Ny.
  rewrite X0, X1 in Nx. rewrite Y0, Y1 in Ny. rewrite X, Y in On.
  assert (Hval : forall x y, -1 <= x <= 1 -> -1 <= y <= 1 -> sve_sum r x y = Ok (expand r x y)).
  { intros x y Ax Ay. destruct (on_range _ _ _ _ On) as (U1 & U2 & U3 & U4). pose proof On as (A1 & A2 & A3 & A4 & A5 & A6 & A7 & A8).
    apply sve_sum_ok; auto; rewrite ?U1, ?U2, ?U3, ?U4, ?X2, ?X3, ?Y2, ?Y3; lra. }
  exists (expand r). split; [exact Hval|]. split; [|split; [|split; [|auto]]].
  - rewrite Sr. apply (block_error _ _ _ _ S k _ b' i r HS G Lx Ly Hs Pi Hp). intros x y Ix Iy.
    pose proof (Nx x Ix). pose proof (Ny y Iy). apply Hval; lra.
  - exists i. congruence.
  - intros c M' -> -> Nb HM. destruct Hrt as [[? _]|Hrt]; [discriminate|]. injection Hrt as <-. rewrite Sr.
    apply (dropped_small _ _ c 0 _ b' i M' Ht); auto. unfold all_values. cbn [flat_map]. rewrite app_nil_r. exact HM.
Qed.

Lemma wellformed_sample : svd_shaped run ->
  nonincreasing (ss r) /\ Forall (fun x => 0 < x) (ss r) /\ within (length (ss r)) n_sv /\
  (exists n, sve_on n (segments_x K) (segments_y K) r /\ forall m, ng = Some m -> n = m) /\
  (exists e t strategy w, safe_eps have_xprec dd eps work svds = (e, t, strategy, w) /\ seps r = Some e) /\
  (forall l g, represents (su r) l g -> 0 < g 1).
Proof.
  intros Hrun.
  destruct (compute_sample_inv _ _ _ _ _ _ _ _ Hc) as (t & safe & S & A & alg & h & rtol & b' & HS & HA & Hrt & Ht & Hp & Qp & strategy & wn & Hsafe).
  destruct (full_segs _ _ _ HS) as (X & Y & Ex & Ey & L & G & D & Px & Py & M & Es & N).
  destruct (truncate1 _ _ _ _ Ht) as (i & Pi).
  assert (Lx : (2 <= length (s_segs_x S))%nat) by (rewrite X; apply Ex).
  assert (Ly : (2 <= length (s_segs_y S))%nat) by (rewrite Y; apply Ey).
  destruct (sampling_rect _ _ _ _ _ _ HS G Lx Ly ltac:(rewrite M; exact (kernel_rect f K)) HA) as (m1 & n1 & T1 & T2 & T3).
  pose proof (svd_well Hrun alg A h _ _ T1 T2 T3 Qp) as R1.
  assert (Hns : Forall (fun b : usv => nonincreasing (svals b) /\ Forall (fun x => 0 <= x) (svals b)) [run alg A h]).
  { repeat constructor; destruct (run alg A h) as [[a b] c]; tauto. }
  pose proof (kept_positive _ _ _ _ 0 _ b' i Ht Hns eq_refl eq_refl Pi) as Kp.
  destruct (well_post _ _ _ _ _ _ _ _ _ HS G Lx Ly R1 Pi Hp) as (S1 & On & P1 & Ps). rewrite X, Y in On.
  assert (Pr := truncate_prefix _ _ _ _ Ht). destruct Pr as [_ Hw]. unfold all_values in Hw. cbn [flat_map] in Hw. rewrite app_nil_r in Hw.
  assert (Hse : seps r = Some safe) by (rewrite <- Es; exact Ps).
  rewrite S1. split; [|split; [exact Kp|split; [exact Hw|split; [|split; [|exact P1]]]]]; [|exists (s_n S); split; [exact On|intros m ->; exact N]|exists safe, t, strategy, wn; auto].
  inversion Hns as [|? ? [Hni _] _]; subst. unfold prefix_of in Pi. subst b'. unfold svals in *. cbn [fst snd].
  apply sorted_firstn. exact Hni.
Qed.
End Sample.
End Compute.
