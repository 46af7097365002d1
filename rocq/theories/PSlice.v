(** C12 and C13: the plates, moments and messages of a sliced node. *)
From Coq Require Import List Arith ZArith Lia Bool Reals Lra.
From Verif Require Import Base Shapes SpecShapes ShapesLemmas NumPy MiscArray SpecArray SpecIndex Reindex PlateNodes SpecPlateNodes SliceLemmas SliceMoments SliceMessage.
Import ListNotations.
Open Scope nat_scope.

(** X[l] on a node with plates P: the node is created with plates Q exactly when NumPy
    indexing of an array of shape P with [l] gives shape Q and Q has no empty axis. *)
Theorem C12_slice_plates : forall P l Q, length (filter is_ellipsis l) <= 1 ->
  ((sl <- slice_init P l ;; slice_plates sl P) = Ok Q <-> indexed l P Q /\ ~ In 0 Q).
Proof. exact slice_indexed. Qed.

(** Any further Ellipsis is read as ":". *)
Theorem C12_more_ellipses : forall P l1 l2, existsb is_ellipsis l1 = false ->
  slice_init P (l1 ++ IEll :: l2) =
  slice_init P (l1 ++ IEll :: map (fun s => if is_ellipsis s then full_slice else s) l2).
Proof.
  intros P l1 l2 H. unfold slice_init, expand_slices.
  set (f := fun s => if is_ellipsis s then full_slice else s).
  destruct (in_dec (fun a b : idx => ltac:(decide equality; try apply Z.eq_dec; decide equality; apply Z.eq_dec) : {a = b} + {a <> b}) IOther (l1 ++ l2)) as [O|O].
  - assert (In IOther (l1 ++ IEll :: l2) /\ In IOther (l1 ++ IEll :: map f l2)) as [I1 I2].
    { apply in_app_or in O as [O|O]; split; apply in_or_app; [now left|now left|right; now right|right; right].
      apply in_map_iff. exists IOther. auto. }
    now rewrite !scan_other by assumption.
  - assert (I1 : forall s, In s (l1 ++ l2) -> s <> IOther) by (intros s J ->; now apply O).
    assert (I2 : forall s, In s (l1 ++ map f l2) -> s <> IOther).
    { intros s J. apply in_app_or in J as [J|J]; [apply I1, in_or_app; now left|].
      apply in_map_iff in J as (t & <- & J). unfold f. destruct (is_ellipsis t); [discriminate|]. apply I1, in_or_app. now right. }
    rewrite (scan_ell l1 l2 0 0 I1 H), (scan_ell l1 (map f l2) 0 0 I2 H). fold f.
    assert (E : map f (map f l2) = map f l2).
    { rewrite map_map. apply map_ext. intros s. unfold f. destruct (is_ellipsis s) eqn:E; [reflexivity|now rewrite E]. }
    now rewrite E.
Qed.

(** X[None, 1, ..., ::-2] for plates (4, 3, 5). *)
Example C12_case :
  length (filter is_ellipsis [INew; IInt 1; IEll; ISlice None None (Some (-2)%Z)]) <= 1 /\
  (sl <- slice_init [4; 3; 5] [INew; IInt 1; IEll; ISlice None None (Some (-2)%Z)] ;; slice_plates sl [4; 3; 5]) = Ok [1; 3; 3] /\
  slice_init [4; 3; 5] [IInt 4] = Err IndexError.
Proof. split; [cbn; lia|]. split; reflexivity. Qed.

(** ** C13 *)

(** No slice runs backwards to the very first element: [b] is the stop of the
    normalised slice, which slice.indices makes -1 in that case. *)
Definition no_reversed_to_start (sl : list idx) : Prop :=
  forall a b st, In (ISlice a (Some b) st) sl -> (0 <= b)%Z.

Lemma slice_good : forall P l sl Q, length (filter is_ellipsis l) <= 1 -> slice_init P l = Ok sl -> slice_plates sl P = Ok Q ->
  no_reversed_to_start sl ->
  good sl P Q /\ forall q p, Forall2 lt q Q -> (selects l P q p <-> p = getitem_src sl P q).
Proof.
  intros P l sl Q N EI EP NR. unfold slice_init in EI.
  destruct (in_dec (fun a b : idx => ltac:(decide equality; try apply Z.eq_dec; decide equality; apply Z.eq_dec) : {a = b} + {a <> b}) IOther l) as [O|O].
  { unfold expand_slices in EI. rewrite scan_other in EI by exact O. discriminate. }
  assert (H : forall s, In s l -> s <> IOther) by (intros s J ->; now apply O).
  destruct (expand_ok (length P) l H N) as [X1 X2].
  destruct (Nat.lt_ge_cases (length P) (used l)) as [L|L]; [rewrite (X1 L) in EI; discriminate|].
  destruct (X2 L) as (l' & E & PL & U & SH). rewrite E in EI. cbn [bind] in EI.
  destruct (normalise_used l' P sl EI U) as [U' F]. unfold slice_plates in EP.
  pose proof (slice_plates_zip sl P [] U' F) as ZP. cbn [length app] in ZP. rewrite ZP in EP.
  destruct (plates_of sl P) as [Q'|] eqn:EQ'; [|discriminate]. injection EP as <-.
  assert (G : good sl P Q') by (apply (norm_good l'); assumption). split; [exact G|].
  intros q p Hq. rewrite <- (selects_norm l' P sl Q' EI U G q p Hq).
  destruct SH as [(B & ->)|(l1 & l2 & -> & B1 & B2 & ->)].
  - now apply selects_trail.
  - assert (UU : used (l1 ++ IEll :: l2) = used (l1 ++ l2)) by (rewrite !used_app, used_cons; reflexivity). rewrite UU in *.
    now apply selects_ell.
Qed.

(** X[l]: element q of the moments is the element p of X's moments that NumPy indexing
    selects; the message to X has the message's element q at p and zero at the plates
    that are not selected; so message and moments are adjoint.  The same function
    computes the mask sent to X (with no variable axes: d = []). *)
Theorem C13_slice_partial : forall P l sl Q d (u m : arr R), length (filter is_ellipsis l) <= 1 ->
  slice_init P l = Ok sl -> slice_plates sl P = Ok Q -> no_reversed_to_start sl ->
  length d <= ndim u -> broadcasts_to (ash u) (P ++ d) ->
  length d <= ndim m -> broadcasts_to (ash m) (Q ++ d) ->
  exists x y, slice_moments sl (length P) d u = Ok x /\ reverse_indexing sl m P d = Ok y /\
    broadcasts_to (ash x) (Q ++ d) /\ broadcasts_to (ash y) (P ++ d) /\
    (forall q p v, within q Q -> within v d -> selects l P q p ->
       bget x (at_index (q ++ v)) = bget u (at_index (p ++ v)) /\
       bget y (at_index (p ++ v)) = bget m (at_index (q ++ v))) /\
    (forall p v, within p P -> within v d -> (forall q, within q Q -> ~ selects l P q p) ->
       bget y (at_index (p ++ v)) = 0%R) /\
    total (Q ++ d) (fun e => bget m e * bget x e)%R = total (P ++ d) (fun e => bget y e * bget u e)%R.
Proof.
  intros P l sl Q d u m N EI EP NR Lu Bu Lm Bm.
  destruct (slice_good P l sl Q N EI EP NR) as [G SEL].
  destruct (slice_moments_ok sl P Q d u G Lu Bu) as (x & X1 & X2 & X3).
  destruct (slice_message_ok sl P Q d m G Lm Bm) as (y & Y1 & Y2 & Y3 & Y4).
  exists x, y. split; [exact X1|]. split; [exact Y1|]. split; [exact X2|]. split; [exact Y2|]. split; [|split].
  - intros q p v Hq Hv S. apply (SEL q p Hq) in S as ->. apply F2_length in Hv. split; [now apply X3|now apply Y3].
  - intros p v Hp Hv NS. apply F2_length in Hv. apply Y4; [exact Hp|exact Hv|]. intros q Hq E. apply (NS q Hq). now apply SEL.
  - apply (adjoint (getitem_src sl P)).
    + intros q Hq. now apply (src_in sl P Q G).
    + intros q v Hq Hv. apply F2_length in Hv. now apply X3.
    + intros p v Hp Hv. apply F2_length in Hv. pose proof (src_inj sl P Q G) as INJ.
      destruct (List.Exists_dec (fun q => getitem_src sl P q = p) (lists Q) (fun q => list_eq_dec Nat.eq_dec (getitem_src sl P q) p)) as [EX|NEX].
      * apply Exists_exists in EX as (q & Hq & E). apply in_lists in Hq. rewrite (fibre_single _ Q p q Hq E).
        -- cbn. rewrite <- E, (Y3 q v Hq Hv). lra.
        -- intros q' Hq' E'. apply INJ; [exact Hq'|exact Hq|congruence].
      * rewrite (fibre_none _ Q p); [|intros q Hq E; apply NEX, Exists_exists; exists q; split; [now apply in_lists|exact E]].
        cbn. apply Y4; [exact Hp|exact Hv|]. intros q Hq E. apply NEX, Exists_exists. exists q. split; [now apply in_lists|exact E].
Qed.

(** Backwards to the first element, as in X[::-1], it fails: the node has two plates but
    its moments have none, and the message cannot be assigned. *)
Theorem C13_reversed_refuted : exists P l sl Q (u m : arr R),
  slice_init P l = Ok sl /\ slice_plates sl P = Ok Q /\ ash u = P /\ ash m = Q /\
  (exists x, slice_moments sl (length P) [] u = Ok x /\ ash x = [0] /\ ~ broadcasts_to (ash x) Q) /\
  reverse_indexing sl m P [] = Err ValueError.
Proof.
  exists [2], [ISlice None None (Some (-1)%Z)], [ISlice (Some 1%Z) (Some (-1)%Z) (Some (-1)%Z)], [2],
    (Arr [2] (fun e => INR (e 0))), (Arr [2] (fun e => INR (e 0))).
  split; [reflexivity|]. split; [reflexivity|]. split; [reflexivity|]. split; [reflexivity|]. split; [|reflexivity].
  eexists. split; [reflexivity|]. split; [reflexivity|]. intros [_ H]. specialize (H 0). cbn in H. destruct H; discriminate.
Qed.

(** X[1, ..., None, ::-2 down to 1] for plates (2, 3, 5), moments without the first plate
    axis and broadcast along the second, and a message broadcast along plates. *)
Example C13_case :
  let l := [IInt 1; IEll; INew; ISlice None (Some 0%Z) (Some (-2)%Z)] in
  let sl := [IInt 1; ISlice (Some 0%Z) (Some 3%Z) (Some 1%Z); INew; ISlice (Some 4%Z) (Some 0%Z) (Some (-2)%Z)] in
  length (filter is_ellipsis l) <= 1 /\ slice_init [2; 3; 5] l = Ok sl /\ slice_plates sl [2; 3; 5] = Ok [3; 1; 2] /\
  no_reversed_to_start sl /\ broadcasts_to [1; 5; 7] ([2; 3; 5] ++ [7]) /\ broadcasts_to [1; 2; 7] ([3; 1; 2] ++ [7]) /\
  selects l [2; 3; 5] [2; 0; 1] [1; 2; 2].
Proof.
  cbv zeta. split; [cbn; lia|]. split; [reflexivity|]. split; [reflexivity|]. split; [|split; [|split]].
  - intros a b st H. cbn in H. repeat destruct H as [H|H]; inversion H; subst; lia.
  - now apply is_shape_subset_spec.
  - now apply is_shape_subset_spec.
  - change [1; 2; 2] with (Z.to_nat 1 :: [2; 2]). apply (se_int 1 _ 2). apply (se_ellipsis _ [3] [5] [2] [0; 1] [2]); [reflexivity|reflexivity|reflexivity|].
    constructor. constructor; [|now constructor]. exists 4%Z, 0%Z, (-2)%Z. split; reflexivity.
Qed.

Print Assumptions C12_slice_plates.
Print Assumptions C12_more_ellipses.
Print Assumptions C13_slice_partial.
Print Assumptions C13_reversed_refuted.
