(** Transformations of quadrature rules. *)
From Coquelicot Require Import Coquelicot.
From Coq Require Import List Reals Arith Bool Lia Lra Sorting.
From Verif.Model Require Import Base Num Gauss.
From Verif.Spec Require Import SGauss.
From Verif.Proofs Require Import BaseFacts SumFacts IntFacts LegFacts PolyFacts.
Import ListNotations.
Open Scope R_scope.

Lemma Reqb_spec x y : reflect (x = y) (Reqb x y).
Proof. unfold Reqb. destruct (Req_EM_T x y); constructor; auto. Qed.
Lemma Rltb_spec x y : reflect (x < y) (Rltb x y).
Proof. unfold Rltb. destruct (Rlt_dec x y); constructor; auto. Qed.
Lemma Rleb_spec x y : reflect (x <= y) (Rleb x y).
Proof. unfold Rleb. destruct (Rle_dec x y); constructor; auto. Qed.

Lemma rsum_app l m : rsum (l ++ m) = rsum l + rsum m.
Proof. induction l; simpl; [lra|]. unfold rsum in *. simpl. rewrite IHl. lra. Qed.
Lemma rsum_map_scal c l : rsum (map (fun t => t * c) l) = rsum l * c.
Proof. induction l; unfold rsum in *; simpl; [lra|rewrite IHl; lra]. Qed.
Lemma rsum_cons x l : rsum (x :: l) = x + rsum l.
Proof. reflexivity. Qed.

Lemma quad_nil_l w f : quad [] w f = 0.
Proof. reflexivity. Qed.
Lemma quad_cons x xs w ws f : quad (x :: xs) (w :: ws) f = w * f x + quad xs ws f.
Proof. reflexivity. Qed.
Lemma quad_app x1 w1 x2 w2 f : length x1 = length w1 -> quad (x1 ++ x2) (w1 ++ w2) f = quad x1 w1 f + quad x2 w2 f.
Proof.
  revert w1. induction x1; intros [|w w1] H; simpl in H; try discriminate.
  - simpl. rewrite quad_nil_l. lra.
  - simpl app. rewrite !quad_cons, IHx1; [lra|lia].
Qed.
Lemma quad_ext x w f g : (forall t, In t x -> f t = g t) -> quad x w f = quad x w g.
Proof.
  revert w. induction x; intros [|w0 w] H; auto. rewrite !quad_cons, (H a) by (simpl; auto).
  rewrite (IHx w); auto. intros; apply H; simpl; auto.
Qed.
Lemma quad_map g h x w f :
  quad (map g x) (map (fun t => t * h) w) f = h * quad x w (fun t => f (g t)).
Proof.
  revert w. induction x; intros [|w0 w]; simpl map; try (unfold quad; simpl; lra).
  rewrite !quad_cons, IHx. lra.
Qed.

(** * reseat and scale *)
Lemma reseat_pos r a b t : rb r <> ra r ->
  (b - a) / (rb r - ra r) * (t - (rb r + ra r) / 2) + (b + a) / 2 - a = (t - ra r) * ((b - a) / (rb r - ra r)) /\
  b - ((b - a) / (rb r - ra r) * (t - (rb r + ra r) / 2) + (b + a) / 2) = (rb r - t) * ((b - a) / (rb r - ra r)).
Proof. intros H. split; field; lra. Qed.

Lemma reseat_distances r a b : ra r <> rb r -> distances_ok r -> distances_ok (reseat r a b).
Proof.
  intros Hab [Hf Hb]. unfold distances_ok, reseat; simpl. rewrite Hf, Hb, !map_map.
  split; apply map_ext; intros t; pose proof (reseat_pos r a b t ltac:(auto)); lra.
Qed.
Lemma scale_distances r c : distances_ok r -> distances_ok (scale r c).
Proof. auto. Qed.
Lemma init_distances x w a b : distances_ok (rule_init x w None None a b).
Proof. split; reflexivity. Qed.

Lemma StronglySorted_map (f : R -> R) (P Q : R -> R -> Prop) l :
  (forall x y, P x y -> Q (f x) (f y)) -> StronglySorted P l -> StronglySorted Q (map f l).
Proof.
  intros H S. induction S; simpl; constructor; auto.
  rewrite Forall_forall in *. intros y Hy. apply in_map_iff in Hy as (z & <- & Hz). auto.
Qed.

Lemma reseat_placed r a b : ra r < rb r -> a < b -> placed r -> placed (reseat r a b).
Proof.
  intros Hr Hab [S I]. assert (Hs : 0 < (b - a) / (rb r - ra r)) by (apply Rdiv_lt_0_compat; lra).
  split; simpl.
  - eapply StronglySorted_map; [|exact S]. intros x y Hxy. simpl.
    apply Rplus_lt_compat_r, Rmult_lt_compat_l; lra.
  - rewrite Forall_map. eapply Forall_impl; [|exact I]. intros t [H1 H2]. simpl.
    destruct (reseat_pos r a b t ltac:(lra)) as [E1 E2].
    assert (0 < (t - ra r) * ((b - a) / (rb r - ra r))) by (apply Rmult_lt_0_compat; lra).
    assert (0 < (rb r - t) * ((b - a) / (rb r - ra r))) by (apply Rmult_lt_0_compat; lra). lra.
Qed.
Lemma reseat_placed_closed r a b : ra r < rb r -> a <= b -> placed_closed r -> placed_closed (reseat r a b).
Proof.
  intros Hr Hab [S I]. assert (Hs : 0 <= (b - a) / (rb r - ra r)).
  { apply Rmult_le_pos; [lra|]. left. apply Rinv_0_lt_compat; lra. }
  split; simpl.
  - eapply StronglySorted_map; [|exact S]. intros x y Hxy. simpl.
    apply Rplus_le_compat_r, Rmult_le_compat_l; lra.
  - rewrite Forall_map. eapply Forall_impl; [|exact I]. intros t [H1 H2]. simpl.
    destruct (reseat_pos r a b t ltac:(lra)) as [E1 E2].
    assert (0 <= (t - ra r) * ((b - a) / (rb r - ra r))) by (apply Rmult_le_pos; lra).
    assert (0 <= (rb r - t) * ((b - a) / (rb r - ra r))) by (apply Rmult_le_pos; lra). lra.
Qed.

Lemma reseat_sum r a b : rsum (rw (reseat r a b)) = rsum (rw r) * ((b - a) / (rb r - ra r)).
Proof. simpl. apply rsum_map_scal. Qed.
Lemma scale_sum r c : rsum (rw (scale r c)) = rsum (rw r) * c.
Proof. simpl. apply rsum_map_scal. Qed.

(** * join *)
Lemma join_parts_ok a b : forall rs prev parts,
  join_parts a b prev rs = Ok parts ->
  parts = map (fun r => (rx r, rw r, map (fun t => t + (ra r - a)) (rfw r), map (fun t => t + (b - rb r)) (rbw r))) rs /\
  chained abut rs /\ match rs with [] => True | r :: _ => ra r = prev end.
Proof.
  induction rs as [|r rs IH]; intros prev parts; simpl.
  - intros [= <-]. auto.
  - destruct (Reqb_spec (ra r) prev) as [E|]; [|discriminate].
    destruct (join_parts a b (rb r) rs) as [ps|] eqn:Ej; simpl; [|discriminate].
    intros [= <-]. apply IH in Ej as (-> & Hc & Hh). repeat split; auto.
    destruct rs; auto. split; auto. unfold abut. auto.
Qed.

Lemma join_parts_complete a b : forall rs prev,
  chained abut rs -> match rs with [] => True | r :: _ => ra r = prev end ->
  exists parts, join_parts a b prev rs = Ok parts.
Proof.
  induction rs as [|r rs IH]; intros prev Hc Hh; simpl.
  - eauto.
  - subst prev. destruct (Reqb_spec (ra r) (ra r)); [|contradiction].
    destruct (IH (rb r)) as [ps ->].
    + destruct rs; simpl in *; tauto.
    + destruct rs; auto. simpl in Hc. symmetry. apply Hc.
    + simpl. eauto.
Qed.

Lemma join_parts_raise a b : forall rs prev e, join_parts a b prev rs = Raise e -> e = ValueError.
Proof.
  induction rs as [|r rs IH]; intros prev e; simpl; [discriminate|].
  destruct (Reqb (ra r) prev); [|congruence].
  destruct (join_parts a b (rb r) rs) eqn:E; simpl; [discriminate|]. intros [= <-]. eauto.
Qed.

Definition joined (r0 : rule) (rs : list rule) : rule :=
  Rule (concat (map rx rs)) (concat (map rw rs))
       (concat (map (fun r => map (fun t => t + (ra r - ra r0)) (rfw r)) rs))
       (concat (map (fun r => map (fun t => t + (rb (last rs r0) - rb r)) (rbw r)) rs))
       (ra r0) (rb (last rs r0)).

Lemma join_spec rs :
  (rs <> [] -> chained abut rs -> exists r0 tl, rs = r0 :: tl /\ join rs = Ok (joined r0 rs)) /\
  (~ chained abut rs -> join rs = Raise ValueError).
Proof.
  destruct rs as [|r0 tl]; [split; [congruence|simpl; tauto]|]. split.
  - intros _ Hc. exists r0, tl. split; auto. unfold join.
    destruct (join_parts_complete (ra r0) (rb (last (r0 :: tl) r0)) (r0 :: tl) (ra r0)) as [ps E]; auto.
    rewrite E. apply join_parts_ok in E as (-> & _ & _). cbn [bind]. rewrite !map_map. reflexivity.
  - intros Hn. unfold join. destruct (join_parts (ra r0) (rb (last (r0 :: tl) r0)) (ra r0) (r0 :: tl)) eqn:E.
    + apply join_parts_ok in E. tauto.
    + apply join_parts_raise in E. subst. reflexivity.
Qed.

Lemma chained_dec rs : chained abut rs \/ ~ chained abut rs.
Proof.
  induction rs as [|r [|s rs] IH]; simpl; auto.
  destruct (Req_EM_T (rb r) (ra s)) as [E|E]; [|right; unfold abut; tauto].
  destruct IH as [H|H]; [left; split; auto|right; tauto].
Qed.

Lemma join_ok_inv rs r : join rs = Ok r -> rs <> [] -> chained abut rs /\ exists r0 tl, rs = r0 :: tl /\ r = joined r0 rs.
Proof.
  intros H Hne. destruct (chained_dec rs) as [Hc|Hc].
  - split; auto. destruct (proj1 (join_spec rs) Hne Hc) as (r0 & tl & E & E'). exists r0, tl.
    rewrite E' in H. inversion H. auto.
  - rewrite (proj2 (join_spec rs) Hc) in H. discriminate.
Qed.

Lemma concat_map_map {A B C} (f : B -> C) (g : A -> list B) l :
  concat (map (fun x => map f (g x)) l) = map f (concat (map g l)).
Proof. rewrite concat_map, map_map. reflexivity. Qed.

Lemma join_distances rs r : Forall distances_ok rs -> join rs = Ok r -> distances_ok r.
Proof.
  intros Hd H. destruct rs as [|r0 tl].
  { injection H as <-. apply init_distances. }
  apply join_ok_inv in H as (_ & r0' & tl' & [= <- <-] & ->); [|discriminate].
  unfold distances_ok, joined; cbn [rx rfw rbw ra rb].
  set (rs := r0 :: tl) in *. set (b := rb (last rs r0)). clearbody b. clearbody rs.
  rewrite <- !concat_map_map. split; f_equal; apply map_ext_in; intros s Hs;
    rewrite Forall_forall in Hd; destruct (Hd s Hs) as [Hf Hb]; rewrite ?Hf, ?Hb, map_map;
    apply map_ext; intros; lra.
Qed.

Lemma last_cons2 {A} (x y : A) l d : last (x :: y :: l) d = last (y :: l) d.
Proof. reflexivity. Qed.

Lemma last_default {A} (l : list A) x d e : last (x :: l) d = last (x :: l) e.
Proof. revert x. induction l; intros x; auto. rewrite !last_cons2. auto. Qed.

(** End points along an abutting chain of non-reversed rules. *)
Lemma chain_bounds r0 : forall rs, chained abut (r0 :: rs) -> Forall (fun r => ra r <= rb r) (r0 :: rs) ->
  Forall (fun r => ra r0 <= ra r /\ rb r <= rb (last (r0 :: rs) r0)) (r0 :: rs) /\ ra r0 <= rb (last (r0 :: rs) r0).
Proof.
  intros rs. revert r0. induction rs as [|r1 rs IH]; intros r0 Hc Ho.
  - inversion Ho; subst. simpl. split; [|lra]. constructor; [lra|constructor].
  - destruct Hc as [Ha Hc]. inversion Ho as [|? ? Ho0 Ho1]; subst.
    destruct (IH r1 Hc Ho1) as [IHf IHb].
    assert (El : rb (last (r0 :: r1 :: rs) r0) = rb (last (r1 :: rs) r1)).
    { rewrite last_cons2, (last_default rs r1 r0 r1). auto. }
    unfold abut in Ha. rewrite El. split; [|lra].
    constructor; [lra|]. eapply Forall_impl; [|exact IHf]. simpl. intros. lra.
Qed.

Lemma StronglySorted_app {A} (P : A -> A -> Prop) l m :
  StronglySorted P l -> StronglySorted P m -> (forall x y, In x l -> In y m -> P x y) -> StronglySorted P (l ++ m).
Proof.
  intros Hl Hm H. induction Hl; simpl; auto. constructor.
  - apply IHHl. intros; apply H; simpl; auto.
  - apply Forall_app. split; auto. apply Forall_forall. intros; apply H; simpl; auto.
Qed.

Lemma join_placed_gen (lt : R -> R -> Prop) (P : rule -> Prop) :
  (forall r, P r -> StronglySorted lt (rx r) /\ Forall (fun x => lt (ra r) x /\ lt x (rb r)) (rx r)) ->
  (forall x y, lt x y -> x <= y) -> (forall x y z, lt x y -> y <= z -> lt x z) -> (forall x y z, x <= y -> lt y z -> lt x z) ->
  forall rs r0, chained abut (r0 :: rs) -> Forall (fun r => ra r <= rb r) (r0 :: rs) -> Forall P (r0 :: rs) ->
  StronglySorted lt (concat (map rx (r0 :: rs))) /\
  Forall (fun x => lt (ra r0) x /\ lt x (rb (last (r0 :: rs) r0))) (concat (map rx (r0 :: rs))).
Proof.
  intros HP Hle Htr Htl. induction rs as [|r1 rs IH]; intros r0 Hc Ho Hp.
  - inversion Hp; subst. simpl. rewrite app_nil_r. auto.
  - pose proof (chain_bounds r0 (r1 :: rs) Hc Ho) as [Hb _].
    destruct Hc as [Ha Hc]. inversion Ho as [|? ? Ho0 Ho1]; subst. inversion Hp as [|? ? Hp0 Hp1]; subst.
    destruct (IH r1 Hc Ho1 Hp1) as [IHs IHf].
    destruct (HP r0 Hp0) as [S0 F0].
    change (concat (map rx (r0 :: r1 :: rs))) with (rx r0 ++ concat (map rx (r1 :: rs))).
    rewrite Forall_forall in F0, IHf. unfold abut in Ha.
    inversion Hb as [|? ? Hb0 Hb1]; subst.
    split.
    + apply StronglySorted_app; auto. intros x y Hx Hy.
      destruct (F0 x Hx) as [_ Hx2]. destruct (IHf y Hy) as [Hy1 _].
      apply (Htr x (rb r0)); auto. rewrite Ha. auto.
    + apply Forall_app. split; apply Forall_forall; intros x Hx.
      * destruct (F0 x Hx) as [H1 H2]. split; auto. apply (Htr x (rb r0)); auto. lra.
      * destruct (IHf x Hx) as [H1 H2]. split.
        -- apply (Htl _ (ra r1)); auto. lra.
        -- rewrite last_cons2, (last_default rs r1 r0 r1). auto.
Qed.

Lemma join_placed rs r : rs <> [] -> Forall (fun r => ra r <= rb r) rs -> Forall placed rs -> join rs = Ok r -> placed r.
Proof.
  intros Hne Ho Hp H. apply join_ok_inv in H as (Hc & r0 & tl & -> & ->); auto.
  apply (join_placed_gen Rlt placed); auto; intros; try lra.
Qed.
Lemma join_placed_closed rs r : rs <> [] -> Forall (fun r => ra r <= rb r) rs -> Forall placed_closed rs -> join rs = Ok r -> placed_closed r.
Proof.
  intros Hne Ho Hp H. apply join_ok_inv in H as (Hc & r0 & tl & -> & ->); auto.
  apply (join_placed_gen Rle placed_closed); auto; intros; try lra.
Qed.

Lemma join_sum rs r : join rs = Ok r -> rsum (rw r) = rsum (map (fun s => rsum (rw s)) rs).
Proof.
  intros H. destruct rs as [|r0 tl]; [injection H as <-; reflexivity|].
  apply join_ok_inv in H as (_ & r0' & tl' & [= <- <-] & ->); [|discriminate]. unfold joined. cbn [rw].
  generalize (r0 :: tl). clear. induction l; auto.
  cbn [map concat]. rewrite rsum_app, IHl. reflexivity.
Qed.

Lemma join_interval rs r : rs <> [] -> join rs = Ok r ->
  (exists r0 tl, rs = r0 :: tl /\ ra r = ra r0 /\ rb r = rb (last rs r0)).
Proof.
  intros Hne H. apply join_ok_inv in H as (Hc & r0 & tl & -> & ->); auto.
  exists r0, tl. auto.
Qed.

Lemma join_quad rs r f : Forall (fun r => length (rx r) = length (rw r)) rs -> join rs = Ok r ->
  quad (rx r) (rw r) f = rsum (map (fun s => quad (rx s) (rw s) f) rs).
Proof.
  intros Hl H. destruct rs as [|r0 tl]; [injection H as <-; reflexivity|].
  apply join_ok_inv in H as (_ & r0' & tl' & [= <- <-] & ->); [|discriminate].
  unfold joined. simpl rx. unfold joined. cbn [rw].
  change (rx r0 ++ concat (map rx tl)) with (concat (map rx (r0 :: tl))).
  generalize dependent (r0 :: tl). clear. induction l; intros H; auto.
  inversion H; subst. cbn [map concat]. rewrite quad_app, IHl; auto.
Qed.

Lemma join_length rs r : Forall (fun r => length (rx r) = length (rw r)) rs -> join rs = Ok r -> length (rx r) = length (rw r).
Proof.
  intros Hl H. destruct rs as [|r0 tl]; [injection H as <-; reflexivity|].
  apply join_ok_inv in H as (_ & r0' & tl' & [= <- <-] & ->); [|discriminate].
  unfold joined. simpl rx. unfold joined. cbn [rw].
  change (rx r0 ++ concat (map rx tl)) with (concat (map rx (r0 :: tl))).
  generalize dependent (r0 :: tl). clear. induction l; intros H; auto.
  inversion H; subst. cbn [map concat]. rewrite !app_length, IHl; auto.
Qed.

(** * piecewise *)
Fixpoint pieces (r : rule) (edges : list R) : list rule :=
  match edges with
  | s :: ((t :: _) as rest) => reseat r s t :: pieces r rest
  | _ => []
  end.
Lemma pieces_cons2 r s t l : pieces r (s :: t :: l) = reseat r s t :: pieces r (t :: l).
Proof. reflexivity. Qed.
Lemma init_cons2 {A} (x y : A) l : init (x :: y :: l) = x :: init (y :: l).
Proof. reflexivity. Qed.
Lemma pieces_eq r edges : map2 (reseat r) (init edges) (tl edges) = pieces r edges.
Proof.
  destruct edges as [|s edges]; auto. revert s. induction edges as [|t l IH]; intros s; auto.
  rewrite init_cons2, pieces_cons2. cbn [tl map2]. rewrite <- IH. reflexivity.
Qed.
Lemma edges_test edges :
  forallb (fun x => x) (map2 (fun s t => Rltb s t) (init edges) (tl edges)) = true <-> chained Rlt edges.
Proof.
  destruct edges as [|s edges]; [simpl; tauto|]. revert s. induction edges as [|t l IH]; intros s; [simpl; tauto|].
  rewrite init_cons2. cbn [tl map2 forallb]. rewrite andb_true_iff. specialize (IH t). cbn [tl] in IH. rewrite IH.
  cbn [chained]. destruct (Rltb_spec s t); intuition (auto; try discriminate).
Qed.
Lemma pieces_chained r edges : chained abut (pieces r edges).
Proof.
  destruct edges as [|s edges]; [exact I|]. revert s. induction edges as [|t l IH]; intros s; [exact I|].
  rewrite pieces_cons2. specialize (IH t). destruct l as [|u l]; [exact I|].
  rewrite pieces_cons2 in *. split; auto. reflexivity.
Qed.

Lemma piecewise_spec r edges :
  (chained Rlt edges -> exists q, piecewise r edges = Ok q /\ join (pieces r edges) = Ok q) /\
  (~ chained Rlt edges -> piecewise r edges = Raise ValueError).
Proof.
  unfold piecewise. rewrite pieces_eq. split; intros H.
  - rewrite (proj2 (edges_test edges) H).
    destruct (pieces r edges) as [|p ps] eqn:E; [eexists; split; reflexivity|]. rewrite <- E.
    destruct (proj1 (join_spec (pieces r edges))) as (r0 & t & E1 & E2); [congruence|apply pieces_chained|].
    eauto.
  - destruct (forallb _ _) eqn:E; auto. exfalso. apply H, edges_test, E.
Qed.

Lemma pieces_forall r edges (P : rule -> Prop) :
  chained Rlt edges -> (forall s t, s < t -> P (reseat r s t)) -> Forall P (pieces r edges).
Proof.
  intros Hc H. destruct edges as [|s edges]; [constructor|]. revert s Hc.
  induction edges as [|t l IH]; intros s Hc; [constructor|]. rewrite pieces_cons2.
  destruct Hc. constructor; auto.
Qed.

Lemma piecewise_ok_inv r edges q : piecewise r edges = Ok q -> chained Rlt edges /\ join (pieces r edges) = Ok q.
Proof.
  intros H. unfold piecewise in H. rewrite pieces_eq in H.
  destruct (forallb _ _) eqn:E; [|discriminate]. apply edges_test in E. auto.
Qed.

Lemma piecewise_distances r edges q : ra r <> rb r -> distances_ok r -> piecewise r edges = Ok q -> distances_ok q.
Proof.
  intros Hr Hd H. apply piecewise_ok_inv in H as [Hc Hj].
  eapply join_distances; [|exact Hj]. apply pieces_forall; auto. intros; apply reseat_distances; auto.
Qed.

Lemma pieces_nonnil r edges : (2 <= length edges)%nat -> pieces r edges <> [].
Proof. destruct edges as [|s [|t l]]; simpl; try lia. discriminate. Qed.

Lemma piecewise_placed r edges q : (2 <= length edges)%nat -> ra r < rb r -> placed r -> piecewise r edges = Ok q -> placed q.
Proof.
  intros Hl Hr Hd H. apply piecewise_ok_inv in H as [Hc Hj].
  eapply join_placed; [| | |exact Hj]; [apply pieces_nonnil; auto| |]; apply pieces_forall; auto; intros.
  - simpl. lra.
  - apply reseat_placed; auto.
Qed.
Lemma piecewise_placed_closed r edges q : (2 <= length edges)%nat -> ra r < rb r -> placed_closed r -> piecewise r edges = Ok q -> placed_closed q.
Proof.
  intros Hl Hr Hd H. apply piecewise_ok_inv in H as [Hc Hj].
  eapply join_placed_closed; [| | |exact Hj]; [apply pieces_nonnil; auto| |]; apply pieces_forall; auto; intros.
  - simpl. lra.
  - apply reseat_placed_closed; auto. lra.
Qed.

Lemma piecewise_interval r edges q d : (2 <= length edges)%nat -> piecewise r edges = Ok q ->
  ra q = hd d edges /\ rb q = last edges d.
Proof.
  intros Hl H. apply piecewise_ok_inv in H as [Hc Hj].
  destruct (join_interval _ _ (pieces_nonnil r edges Hl) Hj) as (r0 & tl & E & Ea & Eb). rewrite Ea, Eb.
  destruct edges as [|s [|t l]]; simpl in Hl; try lia. rewrite pieces_cons2 in E |- *. injection E as <- <-.
  split; auto. clear. revert s t. induction l as [|u l IH]; intros s t; auto.
  rewrite pieces_cons2. rewrite last_cons2. rewrite (last_cons2 s). rewrite <- (IH t u).
  f_equal. apply last_default.
Qed.

Lemma piecewise_sum r edges q d : ra r <> rb r -> piecewise r edges = Ok q ->
  rsum (rw q) = rsum (rw r) * ((last edges d - hd d edges) / (rb r - ra r)).
Proof.
  intros Hr H. apply piecewise_ok_inv in H as [Hc Hj]. rewrite (join_sum _ _ Hj). clear Hj Hc.
  destruct edges as [|s edges]; [simpl; field; lra|]. revert s. induction edges as [|t l IH]; intros s.
  { simpl. unfold rsum at 1. simpl. field. lra. }
  rewrite pieces_cons2. cbn [map]. rewrite rsum_cons, IH, reseat_sum, last_cons2. simpl hd. field. lra.
Qed.

(** * Exactness *)
Lemma reseat_quad r a b f :
  quad (rx (reseat r a b)) (rw (reseat r a b)) f =
  (b - a) / (rb r - ra r) * quad (rx r) (rw r) (fun t => f ((b - a) / (rb r - ra r) * t + (a - (b - a) / (rb r - ra r) * ra r))) \/ rb r = ra r.
Proof.
  destruct (Req_EM_T (rb r) (ra r)) as [E|E]; auto. left. simpl. rewrite quad_map. f_equal.
  apply quad_ext. intros t _. f_equal. field. lra.
Qed.

Lemma reseat_exact d r a b : ra r <> rb r ->
  exact_to d (rx r) (rw r) (ra r) (rb r) ->
  exact_to d (rx (reseat r a b)) (rw (reseat r a b)) a b.
Proof.
  intros Hr He f Hf. destruct (reseat_quad r a b f) as [E|E]; [|congruence]. rewrite E. clear E.
  set (u := (b - a) / (rb r - ra r)). set (v := a - u * ra r).
  assert (Hg : is_RInt (fun t => f (u * t + v)) (ra r) (rb r) (quad (rx r) (rw r) (fun t => f (u * t + v)))).
  { apply He. apply polylt_comp_lin. auto. }
  destruct (Req_EM_T a b) as [<-|Hab].
  { apply (is_RInt_eq _ a a 0); [apply (is_RInt_point (V := R_CompleteNormedModule))|].
    unfold u. replace ((a - a) / (rb r - ra r)) with 0 by (field; lra). ring. }
  assert (Hu : u <> 0). { unfold u. apply Rmult_integral_contrapositive_currified; [lra|]. apply Rinv_neq_0_compat. lra. }
  apply (is_RInt_fext (fun y => / u * (u * f (u * (/ u * y + - v / u) + v)))).
  { intros y. replace (u * (/ u * y + - v / u) + v) with y by (field; auto). field. auto. }
  assert (Hl : is_RInt (fun t => u * f (u * t + v)) (/ u * a + - v / u) (/ u * b + - v / u) (u * quad (rx r) (rw r) (fun t => f (u * t + v)))).
  { replace (/ u * a + - v / u) with (ra r) by (unfold v; field; auto).
    replace (/ u * b + - v / u) with (rb r) by (unfold v, u; field; split; lra).
    apply is_RInt_scalR. auto. }
  exact (is_RInt_lin (fun t => u * f (u * t + v)) (/ u) (- v / u) a b _ Hl).
Qed.

Lemma piecewise_exact d r edges q f e :
  (2 <= length edges)%nat -> ra r < rb r -> length (rx r) = length (rw r) ->
  Forall (fun x => ra r < x < rb r) (rx r) ->
  exact_to d (rx r) (rw r) (ra r) (rb r) -> piecewise r edges = Ok q ->
  piecewise_polynomial d edges f ->
  is_RInt f (hd e edges) (last edges e) (quad (rx q) (rw q) f).
Proof.
  intros Hl2 Hr Hlen Hin He Hp Hf. apply piecewise_ok_inv in Hp as [Hc Hj].
  rewrite (join_quad (pieces r edges) q f); auto.
  2:{ apply pieces_forall; auto. intros. simpl. rewrite !map_length. auto. }
  clear Hj. destruct edges as [|s edges]; [simpl in Hl2; lia|]. clear Hl2.
  simpl hd. revert s Hc Hf. induction edges as [|t l IH]; intros s Hc Hf.
  { simpl. unfold rsum. simpl. apply (is_RInt_point (V := R_CompleteNormedModule)). }
  rewrite pieces_cons2. cbn [map]. rewrite rsum_cons, last_cons2.
  destruct Hc as [Hst Hc]. destruct Hf as [(g & Hg & Eg) Hf].
  apply is_RInt_chasles with t; [|apply IH; auto].
  rewrite (quad_ext _ _ f g).
  - apply (is_RInt_ext_in g); [lra|intros; symmetry; apply Eg; auto|].
    exact (reseat_exact d r s t ltac:(lra) He g Hg).
  - intros x Hx. apply Eg. simpl in Hx. apply in_map_iff in Hx as (y & <- & Hy).
    rewrite Forall_forall in Hin. destruct (Hin y Hy).
    destruct (reseat_pos r s t y ltac:(lra)) as [E1 E2].
    assert (0 < (t - s) / (rb r - ra r)) by (apply Rdiv_lt_0_compat; lra).
    assert (0 < (y - ra r) * ((t - s) / (rb r - ra r))) by (apply Rmult_lt_0_compat; lra).
    assert (0 < (rb r - y) * ((t - s) / (rb r - ra r))) by (apply Rmult_lt_0_compat; lra). lra.
Qed.

Lemma piecewise_empty r edges : (length edges < 2)%nat -> piecewise r edges = Ok (Rule [] [] [] [] (-1) 1).
Proof. destruct edges as [|s [|t l]]; simpl; auto. lia. Qed.
