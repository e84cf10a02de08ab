(** Small closed facts used by Props/PMatsubara.v. *)
From Coq Require Import List ZArith Bool Reals Lra Lia Sorted Arith.
From Verif.Model Require Import Base Roots Matsubara.
From Verif.Spec Require Import SRoots SMatsubara.
From Verif.Proofs Require Import BaseFacts RootsFacts RootsExtr MatsubaraFacts DefaultMatsubara.
Import ListNotations.
Open Scope Z_scope.

Lemma l_requested_spec q L :
  (L <= l_requested q L <= S L)%nat /\
  Nat.even (l_requested q L) = match q with Odd => true | Even => false end.
Proof.
  unfold l_requested. rewrite <- Nat.negb_even.
  destruct q, (Nat.even L) eqn:E; cbn [negb]; split; try lia; auto;
    rewrite Nat.even_succ, <- Nat.negb_even, E; reflexivity.
Qed.

Lemma fallback_constant :
  ends_with (fun fuel => default_matsubara fuel [0; 1; 2] Odd [fun _ => 1%R] 1 false false) (Raise IndexError).
Proof.
  exists 0%nat. intros fuel _.
  assert (E : discrete_extrema fuel (fun _ => 1%R) [0; 1; 2] = Some (Ok [])).
  { change (fun _ : Z => 1%R) with (fun x : Z => IZR ((fun _ => 1) x)). rewrite extrema_zr.
    destruct fuel; reflexivity. }
  unfold default_matsubara. change (nth_error [fun _ : Z => 1%R] (l_requested Odd 1)) with (@None (Z -> R)).
  cbn [rev app]. unfold ft_extrema. rewrite E. reflexivity.
Qed.

Lemma fence_total wn po :
  (wn <> [] \/ po = true -> exists wn', fence_sampling wn po = Ok wn') /\
  fence_sampling [] false = Raise IndexError.
Proof. split; [apply fence_ok|apply fence_empty]. Qed.

Definition twenty : list Z := map (fun k => 10 * Z.of_nat k - 95) (seq 0 20).

Lemma fence_asymmetric :
  exists wn wn', symmetric wn /\ StronglySorted Z.lt wn /\ fence_sampling wn false = Ok wn' /\ ~ symmetric wn'.
Proof.
  assert (H1 : symmetric twenty) by (vm_compute; reflexivity).
  assert (H2 : StronglySorted Z.lt twenty) by (apply increasingb_sorted; vm_compute; reflexivity).
  destruct (fence_ok twenty false) as (wn' & E); [left; discriminate|].
  exists twenty, wn'. repeat split; auto.
  rewrite (fence_symmetry twenty wn' 95); auto; try lia.
  - intros [H|[H|H]]; vm_compute in H; try discriminate; lia.
  - vm_compute. tauto.
  - intros n Hn. unfold twenty in Hn. apply in_map_iff in Hn as (k & <- & Hk). apply in_seq in Hk. lia.
Qed.

Lemma spare_case :
  ends_with (fun fuel => default_matsubara fuel [0; 1; 2; 5; 9] Even [fun x => 1%R; fun x => IZR (x - 5)] 0 false false)
            (Ok ([-10; 10], true)).
Proof.
  exists 0%nat. intros fuel _.
  assert (Ez : forall z, Reqb (IZR z) 0 = (z =? 0)).
  { intros z. destruct (Z.eqb_spec z 0) as [->|H]; [apply Reqb_true; auto|].
    apply Reqb_false. intros H'. apply H, eq_IZR. auto. }
  assert (E : find_all_discr rsignbit (fun v => Reqb v 0) fuel (fun x => IZR (x - 5)) [0; 1; 2; 5; 9] = Some [5]).
  { unfold find_all_discr. rewrite find_all_unfold. unfold sc_pair, rsignbit. cbn [filter pairs map].
    rewrite !Ez. cbv beta iota zeta. repeat (rewrite ?Rltb_IZR, ?Ez; cbn -[Rltb IZR Z.sub]; cbv [Z.sub]). reflexivity. }
  unfold default_matsubara. change (nth_error [fun _ : Z => 1%R; fun x => IZR (x - 5)] (l_requested Even 0)) with (Some (fun x => IZR (x - 5))).
  unfold ft_sign_changes. rewrite E. reflexivity.
Qed.
