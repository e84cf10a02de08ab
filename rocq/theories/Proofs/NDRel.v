(** Operations along an axis whose result may depend on the position. *)
From Coq Require Import ZArith Arith Bool Reals Lra Lia Psatz.
From Coquelicot Require Import Coquelicot.
From Coq Require Import List.
From Verif.Model Require Import Base Num FT NDArray Sampling SamplingIEEE.
From Verif.Spec Require Import SSampling SSamplingIEEE.
From Verif.Proofs Require Import SumFacts FTFacts FTModel NDFacts.
Import ListNotations.
Open Scope R_scope.
Notation length := List.length.

Definition rel := (nat -> C) -> (nat -> C) -> Prop.
Definition respects (P : rel) : Prop := forall g g' h h', (forall l, g l = g' l) -> (forall i, h i = h' i) -> P g h -> P g' h'.

Definition rslices (a N : nat) (P : rel) (x y : nd C) : Prop :=
  shp y = set_nth a N (shp x) /\
  forall idx, length idx = length (shp x) -> P (fun l => elt x (set_nth a l idx)) (fun i => elt y (set_nth a i idx)).

Definition racts (op : nd C -> res (nd C)) (L N : nat) (P : rel) : Prop :=
  forall x, if (1 <=? ndim x)%nat && Nat.eqb (nth (self_axis (ndim x)) (shp x) 0%nat) L
            then exists y, op x = Ok y /\ rslices (self_axis (ndim x)) N P x y
            else op x = Raise ValueError.

Lemma slices_of a N P x y : (a < length (shp x))%nat -> rslices a N P x y -> slices a N P x y.
Proof.
  intros Ha [S E]. split; [exact S|]. intros idx Hi. apply E. apply valid_len in Hi. rewrite S, set_nth_len in Hi; assumption.
Qed.

Lemma rmatop_along op L N P x k a : racts op L N P -> respects P -> axis_of (ndim x) k = Some a ->
  if Nat.eqb (nth a (shp x) 0%nat) L
  then exists y, matop op x (Some k) = Ok y /\ rslices a N P x y
  else matop op x (Some k) = Raise ValueError.
Proof.
  intros Hop Hf Ha. pose proof (axis_of_lt _ _ _ Ha) as La.
  unfold matop.
  assert (Et : Z.max (Z.of_nat (ndim x) - 2) 0 = Z.of_nat (self_axis (ndim x))) by (unfold self_axis; lia).
  rewrite Et. set (t := self_axis (ndim x)).
  assert (Lt : (t < ndim x)%nat) by (apply self_axis_lt; lia).
  assert (M1 : moveaxis x k (Z.of_nat t) = Ok (transpose (move_order (ndim x) a t) x)).
  { unfold moveaxis. rewrite normalize_axis_of, Ha. cbn [bind].
    rewrite normalize_axis_of, axis_of_nat by assumption. reflexivity. }
  rewrite M1. cbn [bind].
  destruct (transpose_move x a t La Lt) as [S1 E1].
  set (x1 := transpose (move_order (ndim x) a t) x) in *.
  assert (N1 : ndim x1 = ndim x). { unfold ndim. rewrite S1, ins_len, del_len by assumption. unfold ndim in La; lia. }
  assert (Ld : length (del a (shp x)) = (ndim x - 1)%nat) by (rewrite del_len by assumption; reflexivity).
  specialize (Hop x1). rewrite N1 in Hop. fold t in Hop.
  rewrite S1 in Hop. rewrite ins_nth in Hop by lia.
  destruct (Nat.leb_spec 1 (ndim x)) as [_|]; [|lia]. cbn [andb] in Hop.
  destruct (Nat.eqb_spec (nth a (shp x) 0%nat) L) as [EL|NL].
  2: { rewrite Hop. reflexivity. }
  destruct Hop as (y & -> & Sy & Ey). cbn [bind].
  rewrite S1, set_nth_ins in Sy by lia.
  assert (Ny : ndim y = ndim x). { unfold ndim at 1. rewrite Sy, ins_len. lia. }
  unfold moveaxis. rewrite Ny, !normalize_axis_of, axis_of_nat by assumption. cbn [bind]. rewrite Ha. cbn [bind].
  destruct (transpose_move y t a) as [S2 E2]; [lia|lia|]. rewrite Ny in S2, E2.
  eexists; split; [reflexivity|]. split.
  - rewrite S2, Sy. rewrite ins_nth by lia. rewrite del_ins by lia. apply (ins_del). exact La.
  - intros idx Hi. fold (ndim x) in Hi.
    specialize (Ey (ins t 0%nat (del a idx))). fold (ndim x1) in Ey. rewrite ins_len, del_len in Ey by lia. specialize (Ey ltac:(lia)).
    refine (Hf _ _ _ _ _ _ Ey).
    + intros l. rewrite set_nth_ins by (rewrite del_len; lia). rewrite E1 by (rewrite ins_len, del_len; lia).
      rewrite ins_nth, del_ins by (rewrite del_len; lia). now rewrite (ins_del) by lia.
    + intros i. rewrite E2 by (rewrite set_nth_len; lia).
      rewrite set_nth_nth by lia. rewrite set_nth_ins by (rewrite del_len; lia). f_equal.
      rewrite <- (ins_del a i idx) by lia. rewrite del_ins by (rewrite del_len; lia). reflexivity.
Qed.

Lemma rmatop_slices op L N P : racts op L N P -> respects P -> slices_along (fun x k => matop op x (Some k)) L N P.
Proof.
  intros H X x k. fold (ndim x). destruct (axis_of (ndim x) k) as [a|] eqn:E; [|now apply matop_bad_axis].
  pose proof (rmatop_along op L N P x k a H X E) as K. destruct (Nat.eqb _ _); [|exact K].
  destruct K as (y & E1 & E2). exists y. split; [exact E1|]. apply slices_of; [|exact E2]. exact (axis_of_lt _ _ _ E).
Qed.
Lemma rmatop_default op L N P : racts op L N P -> slices_default (fun x => matop op x None) L N P.
Proof.
  intros H x. specialize (H x). unfold ndim, self_axis in H. destruct (length (shp x)) as [|n] eqn:E; [exact H|].
  cbn [Nat.leb andb] in H. replace (S n - 2)%nat with (n - 1)%nat in H by lia.
  destruct (Nat.eqb _ _); [|exact H]. destruct H as (y & H1 & H2). exists y. split; [exact H1|]. apply slices_of; [lia|exact H2].
Qed.

Lemma racts_weaken op L N (P Q : rel) : racts op L N P -> (forall g h, P g h -> Q g h) -> racts op L N Q.
Proof.
  intros H I x. specialize (H x). destruct (_ && _); [|exact H]. destruct H as (y & H1 & H2 & H3). exists y. split; [exact H1|]. split; [exact H2|].
  intros idx Hi. apply I, H3, Hi.
Qed.
Lemma slices_along_weaken op L N (P Q : rel) : slices_along op L N P -> (forall g h, P g h -> Q g h) -> slices_along op L N Q.
Proof.
  intros H I x k. specialize (H x k). destruct (axis_of _ k); [|exact H]. destruct (Nat.eqb _ _); [|exact H]. destruct H as (y & H1 & H2 & H3).
  exists y. split; [exact H1|]. split; [exact H2|]. intros idx Hi. apply I, H3, Hi.
Qed.

Lemma nth_map_seq {A} (f : nat -> A) d n i : (i < n)%nat -> nth i (map f (seq 0 n)) d = f i.
Proof. intros H. rewrite (nth_indep _ d (f 0%nat)) by (rewrite map_length, seq_length; exact H). rewrite map_nth, seq_nth by exact H. reflexivity. Qed.

(** Products. *)
Definition prod_rel (m : mat) (gam th : R) : rel := fun g h => forall i,
  Cmod (Cminus (h i) (apply_mat m g i)) <= gam * sumn (mc m) (fun l => Cmod (me m i l) * Cmod (g l)) + th.
Lemma prod_respects m gam th : respects (prod_rel m gam th).
Proof.
  intros g g' h h' Eg Eh H i. rewrite <- Eh. rewrite <- (ext_apply_mat m g g' i Eg). rewrite (sumn_ext _ _ (fun l => Cmod (me m i l) * Cmod (g l))) by (intros; now rewrite Eg). apply H.
Qed.

Section Dot.
Variables (ar : arith) (K : nat) (gam th : R).
Hypothesis HD : dot_near K gam th (ar_dot ar).

Lemma dot_apply idx m i (g : nat -> C) : (mc m <= K)%nat ->
  Cmod (Cminus (ar_dot ar idx (map (me m i) (seq 0 (mc m))) (map g (seq 0 (mc m)))) (apply_mat m g i)) <=
  gam * sumn (mc m) (fun l => Cmod (me m i l) * Cmod (g l)) + th.
Proof.
  intros Hk. destruct HD as (_ & _ & H). specialize (H idx (map (me m i) (seq 0 (mc m))) (map g (seq 0 (mc m)))).
  rewrite !map_length, seq_length in H. specialize (H eq_refl Hk).
  rewrite (csumn_ext _ _ (fun l => Cmult (me m i l) (g l))) in H by (intros; now rewrite !nth_map_seq).
  rewrite (sumn_ext _ _ (fun l => Cmod (me m i l) * Cmod (g l))) in H by (intros; now rewrite !nth_map_seq). exact H.
Qed.

Lemma racts_mm m : (mc m <= K)%nat -> racts (mm_rd ar m) (mc m) (mr m) (prod_rel m gam th).
Proof.
  intros Hk x. unfold mm_rd, ndim, self_axis.
  destruct x as [s e]; cbn [shp elt]. rewrite <- (rev_involutive s). destruct (rev s) as [|n [|k pre]] eqn:Es; clear Es s.
  - reflexivity.
  - cbn [rev app length Nat.sub nth Nat.leb andb shp].
    destruct (Nat.eqb n (mc m)) eqn:En; cbn [negb]; [|reflexivity].
    eexists; split; [reflexivity|]. split; [reflexivity|].
    intros [|j [|]] Hi; try discriminate. intros i. cbn [elt set_nth firstn skipn app nth]. apply dot_apply. exact Hk.
  - rewrite rev_involutive. cbn [rev]. rewrite <- !app_assoc. cbn [app].
    rewrite app_length, rev_length. cbn [length].
    replace (1 <=? length pre + 2)%nat with true by (symmetry; apply Nat.leb_le; lia). cbn [andb].
    replace (length pre + 2 - 2)%nat with (length pre) by lia.
    rewrite nth_app_exact by apply rev_length.
    destruct (Nat.eqb k (mc m)) eqn:En; cbn [negb]; [|reflexivity].
    eexists; split; [reflexivity|]. split.
    + cbn [shp]. unfold set_nth. rewrite firstn_app_exact by apply rev_length.
      now rewrite skipn_S_app by apply rev_length.
    + intros idx Hi. cbn [shp] in Hi. rewrite app_length, rev_length in Hi; cbn [length] in Hi. cbn [elt]. intros i.
      assert (H : (S (length pre) < length idx)%nat) by lia.
      rewrite set_nth_nth by lia.
      assert (EQ : forall l, firstn (length pre) (set_nth (length pre) i idx) ++ [l; nth (S (length pre)) (set_nth (length pre) i idx) 0%nat] = set_nth (length pre) l idx).
      { intros l. rewrite set_nth_nth_ne by lia. unfold set_nth. rewrite firstn_app_exact by (apply firstn_length_le; lia). f_equal. f_equal.
        rewrite (skipn_cons 0%nat _ _ H). f_equal. symmetry. apply skipn_all2. lia. }
      rewrite (map_ext (fun l => e (firstn (length pre) (set_nth (length pre) i idx) ++ [l; nth (S (length pre)) (set_nth (length pre) i idx) 0%nat])) (fun l => e (set_nth (length pre) l idx))) by (intros; now rewrite EQ).
      apply dot_apply. exact Hk.
Qed.
End Dot.

(** Composition. *)
Lemma racts_comp op1 op2 L M N (P1 P2 : rel) : racts op1 L M P1 -> racts op2 M N P2 ->
  racts (fun x => do r <- op1 x; op2 r) L N (fun g h => exists m, P1 g m /\ P2 m h).
Proof.
  intros H1 H2 x. specialize (H1 x).
  destruct (Nat.leb_spec 1 (ndim x)) as [L1|L1]; cbn [andb] in *; [|now rewrite H1].
  pose proof (self_axis_lt _ L1) as Lt.
  destruct (Nat.eqb (nth (self_axis (ndim x)) (shp x) 0%nat) L); [|now rewrite H1].
  destruct H1 as (y & -> & Sy & Ey). cbn [bind]. specialize (H2 y).
  assert (Ny : ndim y = ndim x) by (unfold ndim at 1; rewrite Sy; apply set_nth_len; exact Lt).
  rewrite Ny in H2. destruct (Nat.leb_spec 1 (ndim x)); [|lia]. cbn [andb] in H2.
  rewrite Sy in H2. rewrite set_nth_nth in H2 by (unfold ndim in *; lia). rewrite Nat.eqb_refl in H2.
  destruct H2 as (z & -> & Sz & Ez). eexists; split; [reflexivity|]. split.
  - rewrite Sz, Sy. apply set_nth_set. exact Lt.
  - intros idx Hi. eexists. split; [apply Ey; exact Hi|]. apply Ez. fold (ndim y). rewrite Ny. exact Hi.
Qed.

(** Division of each row. *)
Lemma racts_div ar v s K gam th : dot_near K gam th (ar_dot ar) -> (mc v <= K)%nat ->
  racts (fun r => mm_rd ar v (div_rows_rd ar s r)) (mc v) (mr v)
        (fun g h => prod_rel v gam th (fun k => ar_div ar (g k) (nth k s 0)) h).
Proof.
  intros HD Hk r. pose proof (racts_mm ar K gam th HD v Hk (div_rows_rd ar s r)) as H.
  change (shp (div_rows_rd ar s r)) with (shp r) in H. change (ndim (div_rows_rd ar s r)) with (ndim r) in H.
  destruct (_ && _) eqn:E; [|exact H]. destruct H as (y & E1 & Sy & Ey).
  exists y. split; [exact E1|]. split; [exact Sy|]. intros idx Hi. refine (prod_respects v gam th _ _ _ _ _ _ (Ey idx Hi)); [|reflexivity].
  intros l. unfold div_rows_rd; cbn [elt]. f_equal. f_equal.
  apply andb_prop in E. destruct E as [E _]. apply Nat.leb_le in E.
  replace (if (1 <? ndim r)%nat then (ndim r - 2)%nat else 0%nat) with (self_axis (ndim r)).
  - rewrite set_nth_nth; [reflexivity|]. rewrite Hi. fold (ndim r). pose proof (self_axis_lt _ E). lia.
  - unfold self_axis. destruct (Nat.ltb_spec 1 (ndim r)); lia.
Qed.

(** fit. *)
Definition fit_rel (ar : arith) (uH v : mat) (s : list R) (gam th : R) : rel := fun x y =>
  exists r, prod_rel uH gam th x r /\ prod_rel v gam th (fun k => ar_div ar (r k) (nth k s 0)) y.
Lemma fit_respects ar uH v s gam th : respects (fit_rel ar uH v s gam th).
Proof.
  intros g g' h h' Eg Eh (r & H1 & H2). exists r. split.
  - exact (prod_respects _ _ _ _ _ _ _ Eg (fun _ => eq_refl) H1).
  - exact (prod_respects _ _ _ _ _ _ _ (fun _ => eq_refl) Eh H2).
Qed.
Lemma racts_fit ar d K gam th : dot_near K gam th (ar_dot ar) -> (mc (d_uH d) <= K)%nat -> (mc (d_v d) <= K)%nat -> mc (d_v d) = mr (d_uH d) ->
  racts (d_lstsq_rd ar d) (mc (d_uH d)) (mr (d_v d)) (fit_rel ar (d_uH d) (d_v d) (d_s d) gam th).
Proof.
  intros HD H1 H2 E. unfold d_lstsq_rd, fit_rel.
  apply (racts_comp (mm_rd ar (d_uH d)) (fun r => mm_rd ar (d_v d) (div_rows_rd ar (d_s d) r)) _ (mr (d_uH d)) _ (prod_rel (d_uH d) gam th)
           (fun g h => prod_rel (d_v d) gam th (fun k => ar_div ar (g k) (nth k (d_s d) 0)) h)).
  - apply (racts_mm ar K gam th HD). exact H1.
  - rewrite <- E. apply (racts_div ar (d_v d) (d_s d) K gam th HD). exact H2.
Qed.

(** The split form. *)
Lemma racts_map ar m h K gam th : dot_near K gam th (ar_dot ar) -> (mc m <= K)%nat ->
  racts (fun x => mm_rd ar m (nd_map h x)) (mc m) (mr m) (fun g y => prod_rel m gam th (fun i => h (g i)) y).
Proof.
  intros HD Hk x. pose proof (racts_mm ar K gam th HD m Hk (nd_map h x)) as H.
  change (shp (nd_map h x)) with (shp x) in H. change (ndim (nd_map h x)) with (ndim x) in H. exact H.
Qed.
Lemma racts_add ar op1 op2 L N (P1 P2 : rel) : racts op1 L N P1 -> racts op2 L N P2 ->
  racts (fun x => do r1 <- op1 x; do r2 <- op2 x; Ok (nd_add_rd ar r1 r2)) L N
        (fun g h => exists h1 h2, P1 g h1 /\ P2 g h2 /\ forall i, h i = ar_add ar (h1 i) (h2 i)).
Proof.
  intros H1 H2 x. specialize (H1 x). specialize (H2 x). destruct (_ && _) eqn:E; [|now rewrite H1].
  destruct H1 as (y1 & -> & S1 & E1), H2 as (y2 & -> & S2 & E2). cbn [bind].
  eexists; split; [reflexivity|]. split; [exact S1|]. intros idx Hi. do 2 eexists. split; [apply E1; exact Hi|]. split; [apply E2; exact Hi|]. reflexivity.
Qed.

Definition split_rel (ar : arith) (uT iT v : mat) (s : list R) (gam th : R) : rel := fun x y =>
  exists r, (exists r1 r2, prod_rel uT gam th (fun i => RtoC (Re (x i))) r1 /\ prod_rel iT gam th (fun i => RtoC (Im (x i))) r2 /\ forall i, r i = ar_add ar (r1 i) (r2 i)) /\
            prod_rel v gam th (fun k => ar_div ar (r k) (nth k s 0)) y.
Lemma split_respects ar uT iT v s gam th : respects (split_rel ar uT iT v s gam th).
Proof.
  intros g g' h h' Eg Eh (r & (r1 & r2 & A1 & A2 & A3) & H2). exists r. split; [exists r1, r2; split; [|split; [|exact A3]]|].
  - refine (prod_respects _ _ _ _ _ _ _ _ (fun _ => eq_refl) A1). intros l. now rewrite Eg.
  - refine (prod_respects _ _ _ _ _ _ _ _ (fun _ => eq_refl) A2). intros l. now rewrite Eg.
  - exact (prod_respects _ _ _ _ _ _ _ (fun _ => eq_refl) Eh H2).
Qed.
Lemma racts_sfit ar d K gam th : dot_near K gam th (ar_dot ar) -> (mc (sd_urT d) <= K)%nat -> (mc (sd_v d) <= K)%nat ->
  mc (sd_v d) = mr (sd_urT d) -> mr (sd_uiT d) = mr (sd_urT d) -> mc (sd_uiT d) = mc (sd_urT d) ->
  racts (sd_lstsq_rd ar d) (mc (sd_urT d)) (mr (sd_v d)) (split_rel ar (sd_urT d) (sd_uiT d) (sd_v d) (sd_s d) gam th).
Proof.
  intros HD H1 H2 E1 E2 E3.
  assert (X : forall x, sd_lstsq_rd ar d x = do r <- (do r1 <- mm_rd ar (sd_urT d) (nd_map (fun z => RtoC (Re z)) x); do r2 <- mm_rd ar (sd_uiT d) (nd_map (fun z => RtoC (Im z)) x); Ok (nd_add_rd ar r1 r2)); mm_rd ar (sd_v d) (div_rows_rd ar (sd_s d) r)).
  { intros x. unfold sd_lstsq_rd. destruct (mm_rd ar (sd_urT d) _); cbn [bind]; [|reflexivity]. destruct (mm_rd ar (sd_uiT d) _); reflexivity. }
  intros x. rewrite X. revert x.
  apply (racts_comp (fun x => do r1 <- mm_rd ar (sd_urT d) (nd_map (fun z => RtoC (Re z)) x); do r2 <- mm_rd ar (sd_uiT d) (nd_map (fun z => RtoC (Im z)) x); Ok (nd_add_rd ar r1 r2))
           (fun r => mm_rd ar (sd_v d) (div_rows_rd ar (sd_s d) r)) _ (mr (sd_urT d)) _
           (fun x r => exists r1 r2, prod_rel (sd_urT d) gam th (fun i => RtoC (Re (x i))) r1 /\ prod_rel (sd_uiT d) gam th (fun i => RtoC (Im (x i))) r2 /\ forall i, r i = ar_add ar (r1 i) (r2 i))
           (fun g h => prod_rel (sd_v d) gam th (fun k => ar_div ar (g k) (nth k (sd_s d) 0)) h)).
  - apply (racts_add ar (fun x => mm_rd ar (sd_urT d) (nd_map (fun z => RtoC (Re z)) x)) (fun x => mm_rd ar (sd_uiT d) (nd_map (fun z => RtoC (Im z)) x))).
    + apply (racts_map ar (sd_urT d) (fun z => RtoC (Re z)) K gam th HD). exact H1.
    + rewrite <- E2, <- E3. apply (racts_map ar (sd_uiT d) (fun z => RtoC (Im z)) K gam th HD). rewrite E3. exact H1.
  - rewrite <- E1. apply (racts_div ar (sd_v d) (sd_s d) K gam th HD). exact H2.
Qed.
