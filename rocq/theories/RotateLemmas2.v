(** The sums of the rotation bound as sums over the plates and elements of X. *)
From Coq Require Import List Arith ZArith Lia Bool Reals Lra FunctionalExtensionality.
From Verif Require Import Base Shapes SpecShapes ShapesLemmas NumPy MiscArray TensorLemmas SpecArray PlateSumLemmas PlateSum2Lemmas
  PlateSum3Lemmas MessageLemmas ShapeOpsLemmas SpecDot ExpFam ExpFamLemmas ExpFamBound NetworkLemmas DetNetLemmas GateLemmas PGate DotPart AddNode LinalgLemmas2 ConcatLemmas3 MarkovLemmas
  Families Linalg SpecLinalg LinalgLemmas Gaussian SpecGaussian PGaussian2 PRotation RotateARD SpecRotateARD RotateLemmas.
Import ListNotations.
Open Scope nat_scope.

Definition vec_at (p : env) (i : nat) : env := join 1 p (upd env0 0 i).
Lemma vec_at_index : forall p i, join 1 p (at_index [i]) = vec_at p i.
Proof. intros p i. apply functional_extensionality. intros k. unfold vec_at, join, at_index, upd. destruct k as [|k]; reflexivity. Qed.
Lemma vec_at_0 : forall p i, vec_at p i 0 = i.
Proof. reflexivity. Qed.
Lemma vec_at_outer : forall p i, outer_plate (vec_at p i) = p.
Proof. intros p i. apply functional_extensionality. intros k. unfold outer_plate, vec_at, join. cbn. f_equal. lia. Qed.
Lemma at_vec : forall e, vec_at (outer_plate e) (e 0) = e.
Proof. intros e. apply functional_extensionality. intros [|k]; [reflexivity|]. unfold vec_at, join, outer_plate. cbn. f_equal. lia. Qed.
Lemma valid_vec : forall P D p i, valid P p -> i < D -> valid (P ++ [D]) (vec_at p i).
Proof.
  intros P D p i Hp Hi k. unfold vec_at, join. rewrite ax_last. destruct k as [|k]; [exact Hi|]. cbn. replace (k - 0) with k by lia. apply Hp.
Qed.
Lemma valid_outer : forall P D e, valid (P ++ [D]) e -> valid P (outer_plate e) /\ e 0 < D.
Proof.
  intros P D e He. split; [|specialize (He 0); now rewrite ax_last in He]. intros k. specialize (He (S k)). rewrite ax_last in He. cbn in He. now replace (k - 0) with k in He by lia.
Qed.
Lemma valid_mat : forall P D p i j, valid P p -> i < D -> j < D -> valid (P ++ [D; D]) (mat_at p i j).
Proof.
  intros P D p i j Hp Hi Hj. unfold mat_at. apply (valid_join' P [D; D]); [exact Hp|]. intros [|[|k]]; unfold ax, upd, env0; cbn; try assumption. destruct k; cbn; lia.
Qed.
Lemma total_vec : forall P D F, total (P ++ [D]) F = total P (fun p => rsum D (fun i => F (vec_at p i))).
Proof. intros. rewrite total_vector. apply total_ext. intros p _. apply rsum_ext. intros i _. now rewrite vec_at_index. Qed.
Lemma total_rscal : forall s c F, total s (fun e => c * F e)%R = (c * total s F)%R.
Proof. intros s c F. unfold total. induction (all_indices s) as [|e l IH]; cbn; [lra|]. unfold lsum in *. cbn. rewrite IH. lra. Qed.

Lemma same_fibre : forall from a b t F, (forall k, ax a k = ax b k) -> fibre_sum from a t F = fibre_sum from b t F.
Proof.
  intros from a b t F H. rewrite !fibre_total. apply total_ext. intros e _. unfold maps_to.
  rewrite (forallb_ext _ (fun k => clip a e k =? t k) (fun k => clip b e k =? t k)); [reflexivity|]. intros k. unfold clip. now rewrite H.
Qed.
Lemma same_valid : forall a b t, (forall k, ax a k = ax b k) -> valid a t -> valid b t.
Proof. intros a b t H V k. rewrite <- H. apply V. Qed.
Lemma same_clip : forall a b e, (forall k, ax a k = ax b k) -> clip a e = clip b e.
Proof. intros a b e H. apply functional_extensionality. intros k. unfold clip. now rewrite H. Qed.

Lemma sum_plates_ok : forall V plates, broadcasts_to (ash V) plates -> sum_plates V plates = Ok (total plates (bget V)).
Proof.
  intros V plates H. unfold sum_plates.
  replace (broadcasting_multiplier plates [ash V]) with (Ok (bm_value plates [ash V])) by (symmetry; apply broadcasting_multiplier_ok; split; [intros a [<-|[]]; exact H|reflexivity]).
  cbn [bind]. f_equal. rewrite total_sum_total. symmetry. apply total_expand; [exact H|]. intros k Hk. now apply bget_indep.
Qed.

Lemma safe_last_ok : forall (x : arr R) s, broadcasts_to (ash x) s ->
  broadcasts_to (ash (safe_last x)) (match s with [] => [1] | _ => s end) /\
  (forall k, ax (ash (safe_last x)) k = ax (ash x) k) /\ forall e, bget (safe_last x) e = bget x e.
Proof.
  intros x s H. unfold safe_last, ndim. destruct (Nat.leb_spec 1 (length (ash x))) as [C|C].
  - split; [|split; reflexivity]. destruct s; [|exact H]. destruct H as [H _]. cbn in H. lia.
  - destruct x as [sx vx]. cbn [ash] in *. destruct sx; [|cbn in C; lia].
    assert (E : forall k, ax [1] k = 1) by (intros [|[|k]]; reflexivity).
    split; [|split].
    + cbn [expand_at ash]. change (firstn (length (@nil nat) - 0) [] ++ 1 :: skipn (length (@nil nat) - 0) []) with [1].
      split; [destruct s; cbn; lia|]. intros k. left. apply E.
    + intros k. unfold expand_at. cbn. destruct k as [|[|k]]; reflexivity.
    + intros e. unfold bget, expand_at. cbn. f_equal. apply functional_extensionality. intros k. unfold clip. cbn. destruct k; reflexivity.
Qed.

Section Setup.
Variable M : rot_model.
Let n := rm_nodes M.
Let P := rn_plates n.
Let D := rn_D n.
Let q := outer_alpha n.
Let PA := plates_alpha n.
Hypothesis OK : rot_ok M.

Definition alpha_shape (n : ard_nodes) : shape := match rn_gamma n with Some a => ga_plates a | None => rn_shape n end.
Lemma pa_ax : forall k, ax PA k = ax (alpha_shape n) k.
Proof.
  intros k. unfold PA, plates_alpha. fold (alpha_shape n). destruct (alpha_shape n); [|reflexivity]. destruct k as [|[|k]]; reflexivity.
Qed.
Lemma alpha_shape_ok : broadcasts_to (alpha_shape n) (P ++ [D]).
Proof.
  unfold alpha_shape. destruct (rn_gamma n) as [a|] eqn:E; [apply (ro_gamma M OK a E)|apply (ro_shape M OK)].
Qed.
Lemma pa_ok : broadcasts_to PA (P ++ [D]).
Proof.
  destruct alpha_shape_ok as [A B]. split; [|intros k; rewrite pa_ax; apply B]. unfold PA, plates_alpha. fold (alpha_shape n).
  rewrite app_length in *. destruct (alpha_shape n); cbn in *; lia.
Qed.
Lemma pa_split : PA = q ++ [last PA 1].
Proof. unfold q, outer_alpha. fold PA. apply app_removelast_last. unfold PA, plates_alpha. fold (alpha_shape n). now destruct (alpha_shape n). Qed.
Lemma pa_last : last PA 1 = 1 \/ last PA 1 = D.
Proof. destruct pa_ok as [_ B]. specialize (B 0). assert (E : ax PA 0 = last PA 1) by (rewrite pa_split at 1; now rewrite ax_last). rewrite E, ax_last in B. exact B. Qed.
Lemma q_ax : forall k, ax q k = ax PA (S k).
Proof. intros k. rewrite pa_split, ax_last. cbn. f_equal. lia. Qed.
Lemma q_ok : broadcasts_to q P.
Proof.
  destruct pa_ok as [A B]. split.
  - rewrite pa_split, !app_length in A. cbn in A. lia.
  - intros k. rewrite q_ax. specialize (B (S k)). rewrite (ax_last P) in B. cbn in B. now replace (k - 0) with k in B by lia.
Qed.
Lemma pa_q : broadcasts_to PA (q ++ [D]).
Proof.
  rewrite pa_split at 1. apply broadcasts_to_app; [reflexivity|apply broadcasts_to_refl|]. split; [reflexivity|]. intros [|[|k]]; [|now left|now left]. unfold ax; cbn. exact pa_last.
Qed.
Lemma qd_ok : broadcasts_to (q ++ [D]) (P ++ [D]).
Proof. apply broadcasts_to_app; [reflexivity|exact q_ok|apply broadcasts_to_refl]. Qed.

Let HP := ro_plates M OK.

(** mu and mu^2, with all elements *)
Lemma full_ok : forall (x : arr R), broadcasts_to (ash x) (P ++ [D]) ->
  exists y, np_multiply x (np_ones [D]) = Ok y /\ variable_of P [D] y /\ forall e, bget y e = bget x e.
Proof.
  intros x H. assert (B : broadcasts_to (ash (np_ones [D])) (P ++ [D])).
  { cbn [np_ones ash]. split; [rewrite app_length; cbn; lia|]. intros k. rewrite ax_last. destruct k as [|[|k]]; [now right|now left|now left]. }
  unfold np_multiply. destruct (map2_upper _ _ _ Rmult x (np_ones [D]) _ H B) as (y & Ey & N & By & Gy).
  exists y. split; [exact Ey|]. split.
  - split; [|split; [|exact By]].
    + destruct N as (N1 & _). apply (N1 [D]). cbn. tauto.
    + intros [|i] Hi; [|cbn in Hi; lia]. apply (nb_ax_val _ _ 0 D N); [|right; exists [D]; split; [cbn; tauto|reflexivity]].
      intros a [<-|[<-|[]]]; [|now right]. destruct H as [_ H]. specialize (H 0). now rewrite ax_last in H.
  - intros e. rewrite Gy. unfold np_ones, bget at 2. cbn. ring.
Qed.

Theorem setup_ok : exists s, ard_setup n = Ok s /\
  ash (st_XX s) = q ++ [D; D] /\ ash (st_mu2 s) = q ++ [D] /\ ash (st_Xmu s) = q ++ [D; D] /\
  (forall t i j, valid q t -> i < D -> j < D -> bget (st_XX s) (mat_at t i j) = fibre_sum P q t (fun p => x_second M p i j)) /\
  (forall t i, valid q t -> i < D -> bget (st_mu2 s) (vec_at t i) = fibre_sum P q t (fun p => mu_second M (vec_at p i))) /\
  (forall t i j, valid q t -> i < D -> j < D ->
    bget (st_Xmu s) (mat_at t i j) = fibre_sum P q t (fun p => (x_mean M p i * mu_mean M (vec_at p j))%R)).
Proof.
  pose proof (ro_D M OK) as HD. fold n D in HD. destruct (ro_alpha M OK) as (A1 & A2 & A3). fold n P D in A1, A2, A3. unfold ard_setup.
  destruct (map2_upper _ _ _ Rdiv (rn_alpha_mu n) (rn_alpha n) _ A2 A1) as (mu & E1 & _ & B1 & G1). rewrite E1. cbn [bind].
  destruct (map2_upper _ _ _ Rdiv (rn_alpha_mu2 n) (rn_alpha n) _ A3 A1) as (mu2 & E2 & _ & B2 & G2). rewrite E2. cbn [bind].
  destruct (full_ok mu B1) as (mu' & E3 & B3 & G3). fold D. rewrite E3. cbn [bind].
  destruct (full_ok mu2 B2) as (mu2' & E4 & B4 & G4). rewrite E4. cbn [bind].
  destruct (outer_ok P [D] [D] (rn_X n) mu' eq_refl (ro_X M OK) B3) as (xm & E5 & B5 & G5). change (length [D]) with 1 in E5. rewrite E5. cbn [bind].
  assert (D1 : forall k, 0 < ax [D] k) by (intros [|[|k]]; cbn; unfold ax; cbn; lia).
  assert (D2 : forall k, 0 < ax [D; D] k) by (intros [|[|[|k]]]; cbn; unfold ax; cbn; lia).
  destruct (sum_to_alpha_ok n HP q_ok (rn_XX n) [D; D] D2 (ro_XX M OK)) as (yXX & F1 & S1 & V1). change (length [D; D]) with 2 in *. rewrite F1. cbn [bind].
  destruct (sum_to_alpha_ok n HP q_ok mu2' [D] D1 B4) as (ymu2 & F2 & S2 & V2). change (length [D]) with 1 in *. rewrite F2. cbn [bind].
  destruct (sum_to_alpha_ok n HP q_ok xm [D; D] D2 B5) as (yXmu & F3 & S3 & V3). change (length [D; D]) with 2 in *. rewrite F3. cbn [bind].
  assert (Vij : forall i j, i < D -> j < D -> valid [D; D] (upd (upd env0 1 i) 0 j)).
  { intros i j Hi Hj [|[|k]]; unfold ax, upd, env0; cbn; try assumption. destruct k; cbn; lia. }
  assert (Vi : forall i, i < D -> valid [D] (upd env0 0 i)).
  { intros i Hi [|k]; unfold ax, upd, env0; cbn; try assumption. destruct k; cbn; lia. }
  eexists. split; [reflexivity|]. cbn [st_XX st_mu2 st_Xmu]. split; [exact S1|]. split; [exact S2|]. split; [exact S3|]. split; [|split].
  - intros t i j Ht Hi Hj. unfold mat_at. rewrite V1; [|exact Ht|now apply Vij]. reflexivity.
  - intros t i Ht Hi. unfold vec_at. rewrite V2; [|exact Ht|now apply Vi]. apply fibre_ext. intros p _. now rewrite G4, G2.
  - intros t i j Ht Hi Hj. unfold mat_at. rewrite V3; [|exact Ht|now apply Vij]. apply fibre_ext. intros p Hp. rewrite G5.
    + f_equal.
      * apply bget_ext. intros k _ _. cbn [length]. rewrite Nat.add_1_r. unfold join, upd, env0. cbn. destruct k as [|k]; reflexivity.
      * replace (over _ _ _) with (vec_at p j); [rewrite G3, G1; reflexivity|]. apply functional_extensionality. intros k. cbn [length]. unfold over. rewrite Nat.add_1_r.
        unfold vec_at, join, upd, env0. destruct k as [|k]; reflexivity.
    + intros k Hk. apply (valid_mat P D p i j Hp Hi Hj).
Qed.
End Setup.
