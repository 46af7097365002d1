(** Properties C28-C31 of the graph layer. *)
From Coq Require Import List Arith Lia Bool.
From Verif Require Import Base Shapes SpecShapes ShapesLemmas NumPy MiscArray SpecArray TensorLemmas
  EinsumLemmas MessageLemmas Graph SpecGraph GraphLemmas GraphLinks GraphInv GraphNew GraphDelete
  GraphMask GraphHist.
Import ListNotations.

(** Every node of the graph is of the default class and no plate axis has
    length zero. *)
Definition default_graph (g : graph) : Prop :=
  forall n, n < gsize g -> cls (gnodes g n) = default_class /\ forall k, ax (pls (gnodes g n)) k <> 0.

(** Plate [c] of [m] depends on plate [p] of its [i]-th parent by NumPy's
    broadcasting rules. *)
Definition broadcast_dependence (g : graph) (m i : nat) (c p : env) : Prop :=
  exists X, parent_of g X m i /\
    maps_to (length (pls (gnodes g m))) (pls (gnodes g X)) c p = true.

(** * C28 *)

Theorem C28_mask_is_observed_descendant : forall g D n t,
  history [] g -> faithful g D -> exists_node g n -> valid (pls (gnodes g n)) t ->
  (bget (msk (gnodes g n)) t = true <-> active g D n t).
Proof.
  intros g D n t H F [Hn _] Ht. apply local_active; auto.
  - now apply history_inv.
  - now apply history_local.
Qed.
Print Assumptions C28_mask_is_observed_descendant.

(** Observing and unobserving never fail, and change no other node's
    observations. *)
Theorem C28_observe_succeeds : forall g D o n m,
  history [] g -> faithful g D -> legal g o ->
  o = Observe n m \/ (o = Unobserve n /\ m = scalar false) ->
  exists g', run_gop o g = (g', Ok tt) /\
    forall k, obs (gnodes g' k) = if k =? n then m else obs (gnodes g k).
Proof.
  intros g D o n m H F L [->|[-> ->]].
  - destruct L as ((Hn & _) & Kn & Hm).
    destruct (set_observed_spec D [] g n m (history_inv _ _ H) Hn Kn Hm F (history_local D g H F))
      as (g' & E & _ & _ & O). now exists g'.
  - destruct L as ((Hn & _) & Kn).
    destruct (set_observed_spec D [] g n (scalar false) (history_inv _ _ H) Hn Kn
                (scalar_broadcasts _ _ _) F (history_local D g H F)) as (g' & E & _ & _ & O). now exists g'.
Qed.
Print Assumptions C28_observe_succeeds.

(** Nodes that do not manipulate plates propagate masks by broadcasting. *)
Theorem C28_default_nodes_faithful : forall del g,
  history del g -> default_graph g -> faithful g (broadcast_dependence g).
Proof.
  intros del g H Df m i p [Hm _] Hp w Hw. pose proof (history_inv _ _ H) as I.
  destruct (Df m Hm) as [E Z]. rewrite E. cbn [weights_to plates_to default_class].
  destruct (inv_plates _ _ I m i p Hp) as (pp & E1 & E2). rewrite E in E1. cbn in E1. injection E1 as <-.
  destruct (mask_to_parent_ok w (pls (gnodes g m)) (pls (gnodes g p)) Hw E2 Z) as (y & Ey & Hy & By).
  exists w, (pls (gnodes g m)), y. split; [reflexivity|]. split; [reflexivity|]. split; [exact Ey|].
  split; [exact Hy|]. intros t Ht. rewrite (By t Ht). unfold broadcast_dependence. split.
  - intros (e & H1 & H2 & H3). exists e. split; [exact H1|]. split; [|exact H3]. now exists p.
  - intros (e & H1 & (X & H2 & H3) & H4). exists e. split; [exact H1|]. split; [|exact H4].
    unfold parent_of in *. congruence.
Qed.
Print Assumptions C28_default_nodes_faithful.

Corollary C28_default_graph : forall g n t,
  history [] g -> default_graph g -> exists_node g n -> valid (pls (gnodes g n)) t ->
  (bget (msk (gnodes g n)) t = true <-> active g (broadcast_dependence g) n t).
Proof.
  intros g n t H Df Hn Ht. apply C28_mask_is_observed_descendant; auto.
  now apply (C28_default_nodes_faithful []).
Qed.
Print Assumptions C28_default_graph.

(** * C29 *)

Theorem C29_links_consistent : forall del g X Y i, history del g ->
  (child_of g X Y i <->
   parent_of g X Y i /\
   match knd (gnodes g Y) with
   | KStoch => ~ In Y del
   | KDet | KConcat => kids (gnodes g Y) <> []
   | KConst => False
   end).
Proof.
  intros del g X Y i H. pose proof (history_inv _ _ H) as I. unfold child_of.
  rewrite (kids_iff g X (Y, i) (inv_sound _ _ I)). cbn [fst snd].
  assert (A : parent_of g X Y i -> i < length (pars (gnodes g Y))).
  { intros P. unfold parent_of in P. apply nth_error_Some. congruence. }
  destruct (knd (gnodes g Y)) eqn:K.
  - split; [|tauto]. intros [P _]. apply A in P. rewrite (inv_const _ _ I Y K) in P. cbn in P. lia.
  - split; intros [P Q]; (split; [exact P|]); now apply (inv_stoch _ _ I Y i K (A P)).
  - split; intros [P Q]; (split; [exact P|]); apply (inv_det _ _ I Y i); auto; now rewrite K.
  - split; intros [P Q]; (split; [exact P|]); apply (inv_det _ _ I Y i); auto; now rewrite K.
Qed.
Print Assumptions C29_links_consistent.

(** Parents exist before their children, so the graph has no cycle. *)
Theorem C29_acyclic : forall del g X Y i, history del g -> parent_of g X Y i ->
  X < Y /\ exists_node g X /\ exists_node g Y.
Proof.
  intros del g X Y i H P. pose proof (history_inv _ _ H) as I.
  assert (XY : X < Y) by (apply (inv_older _ _ I); now apply nth_error_In in P).
  assert (HY : Y < gsize g).
  { destruct (le_lt_dec (gsize g) Y) as [L|L]; [|exact L]. unfold parent_of in P.
    rewrite (inv_blank _ _ I Y L) in P. destruct i; discriminate. }
  split; [exact XY|]. split; (split; [lia|apply (inv_built _ _ I); lia]).
Qed.
Print Assumptions C29_acyclic.

(** A construction that fails because the plates do not fit leaves the parents
    with a child that was never constructed. *)
Theorem C29_failed_construction_refuted : forall del g parents plates c i p e,
  history del g -> legal g (New KStoch parents plates c) -> independent g parents ->
  nth_error parents i = Some p -> plates_result g KStoch parents plates c = Err e ->
  exists g', run_gop (New KStoch parents plates c) g = (g', Err e) /\
    child_of g' p (gsize g) i /\ ~ exists_node g' (gsize g).
Proof.
  intros del g parents plates c i p e H L In_ Hp Ep. pose proof (history_inv _ _ H) as I.
  destruct (new_node_cases del g I KStoch parents plates c L) as [(_ & N & _)|(_ & g1 & St & K & E)];
    [contradiction|].
  rewrite Ep in E. exists g1. cbn [run_gop]. unfold gbind. rewrite E. split; [reflexivity|]. split.
  - apply K. right. split; [reflexivity|]. exists i, p. auto.
  - intros [_ B]. destruct (proj2 St (gsize g)) as (_ & _ & _ & _ & _ & _ & E7). rewrite E7 in B.
    cbn in B. rewrite Nat.eqb_refl in B. discriminate.
Qed.
Print Assumptions C29_failed_construction_refuted.

(** After such a failure, observing the parent raises AttributeError. *)
Definition clash_ops : list gop :=
  [New KStoch [] (Some [2]) default_class; New KStoch [] (Some [3]) default_class].
Definition run_all (l : list gop) (g : graph) : graph := fst (giter run_gop l g).
Example C29_failed_construction_example :
  let g := run_all clash_ops empty_graph in
  let '(g1, r1) := run_gop (New KStoch [0; 1] None default_class) g in
  let '(_, r2) := run_gop (Observe 0 (scalar true)) g1 in
  r1 = Err ValueError /\ r2 = Err AttributeError.
Proof. vm_compute. auto. Qed.

(** * C30 *)

(** Deleting a node with children always raises. *)
Theorem C30_delete_with_children_refuted : forall del g n,
  history del g -> kids (gnodes g n) <> [] ->
  exists g' e, run_gop (Delete n) g = (g', Err e).
Proof.
  intros del g n H K. pose proof (history_inv _ _ H) as I. cbn [run_gop]. unfold delete_node.
  apply delete_raises; auto; [apply (inv_older _ _ I)|apply (inv_sound _ _ I)].
Qed.
Print Assumptions C30_delete_with_children_refuted.

(** Deleting a deterministic node without children raises KeyError. *)
Theorem C30_delete_deterministic_refuted : forall del g n,
  history del g -> kids (gnodes g n) = [] -> is_det (knd (gnodes g n)) = true ->
  pars (gnodes g n) <> [] -> run_gop (Delete n) g = (g, Err KeyError).
Proof.
  intros del g n H K Dn P. apply (delete_ok del g n (history_inv _ _ H) K); auto.
Qed.
Print Assumptions C30_delete_deterministic_refuted.

(** Missing: nodes with children.  A stochastic node without children is
    detached: no node has it as a child any more, and the links of all other
    stochastic nodes stay. *)
Theorem C30_delete_childless_partial : forall del g n,
  history del g -> knd (gnodes g n) = KStoch -> kids (gnodes g n) = [] -> ~ In n del ->
  exists g', run_gop (Delete n) g = (g', Ok tt) /\
    (forall X i, ~ child_of g' X n i) /\
    (forall X Y i, knd (gnodes g Y) = KStoch -> Y <> n -> (child_of g' X Y i <-> child_of g X Y i)) /\
    (forall X Y i, is_det (knd (gnodes g Y)) = true ->
       (child_of g' X Y i <-> parent_of g X Y i /\ kids (gnodes g' Y) <> [])) /\
    (forall k, pars (gnodes g' k) = pars (gnodes g k)).
Proof.
  intros del g n H Kn K Nd. pose proof (history_inv _ _ H) as I.
  destruct (delete_ok del g n I K) as [D1 _].
  destruct D1 as (g' & E & St & So & Q & N & F & K' & B); [rewrite Kn; auto|].
  exists g'. split; [exact E|].
  assert (P : forall X Y i, parent_of g' X Y i <-> parent_of g X Y i).
  { intros X Y i. unfold parent_of. destruct (proj2 St Y) as (_ & E2 & _). now rewrite E2. }
  assert (CO : forall X Y i, child_of g' X Y i <-> parent_of g X Y i /\ linked g' (Y, i)).
  { intros X Y i. unfold child_of. rewrite (kids_iff g' X (Y, i) So). cbn [fst snd]. now rewrite P. }
  split; [|split; [|split]].
  - intros X i Hc. apply CO in Hc as [_ Hc]. now apply N in Hc.
  - intros X Y i HY NY. rewrite CO. rewrite F; [|now rewrite HY|exact NY].
    unfold child_of. rewrite (kids_iff g X (Y, i) (inv_sound _ _ I)). reflexivity.
  - intros X Y i HY. rewrite CO.
    assert (A : parent_of g X Y i -> (linked g' (Y, i) <-> kids (gnodes g' Y) <> [])).
    { intros HP. apply Q; [|tauto|].
      - destruct (proj2 St Y) as (E2 & _). now rewrite E2.
      - apply P in HP. unfold parent_of in HP. apply nth_error_Some. congruence. }
    tauto.
  - intros k. now destruct (proj2 St k) as (_ & E2 & _).
Qed.
Print Assumptions C30_delete_childless_partial.

(** Deletion does not refresh the masks of the remaining nodes: after deleting
    its only, observed, child a node is still marked as active. *)
Definition stale_ops : list gop :=
  [New KStoch [] (Some [2]) default_class; New KStoch [0] (Some [2]) default_class;
   Observe 1 (scalar true); Delete 1].
Theorem C30_delete_leaves_stale_mask_refuted :
  let g := run_all stale_ops empty_graph in
  snd (giter run_gop stale_ops empty_graph) = Ok tt /\
  kids (gnodes g 0) = [] /\ bget (obs (gnodes g 0)) env0 = false /\
  bget (msk (gnodes g 0)) env0 = true.
Proof. vm_compute. auto. Qed.
Print Assumptions C30_delete_leaves_stale_mask_refuted.

(** * C31 *)

Theorem C31_dependent_parents_rejected : forall del g k parents plates c,
  history del g -> legal g (New k parents plates c) -> k <> KConcat ->
  (~ independent g parents -> run_gop (New k parents plates c) g = (g, Err ValueError)) /\
  (independent g parents ->
     exists g', run_gop (New k parents plates c) g =
                (g', match plates_result g k parents plates c with
                     | Ok _ => Ok tt
                     | Err e => Err e
                     end)).
Proof.
  intros del g k parents plates c H L Nk. pose proof (history_inv _ _ H) as I.
  cbn [run_gop]. unfold gbind, gret.
  destruct (new_node_cases del g I k parents plates c L) as [(_ & N & E)|(HI & g1 & St & K & E)]; rewrite E.
  - split; [reflexivity|]. intros HI. contradiction.
  - split; [intros HN; destruct HI; contradiction|]. intros _.
    destruct (plates_result g k parents plates c) as [P|e]; eauto.
Qed.
Print Assumptions C31_dependent_parents_rejected.

(** Concatenation keeps the parents' plates apart and accepts any parents. *)
Theorem C31_concatenate_accepts_any : forall del g parents plates c,
  history del g -> legal g (New KConcat parents plates c) ->
  exists g', run_gop (New KConcat parents plates c) g =
             (g', match plates_result g KConcat parents plates c with
                  | Ok _ => Ok tt
                  | Err e => Err e
                  end).
Proof.
  intros del g parents plates c H L. pose proof (history_inv _ _ H) as I.
  cbn [run_gop]. unfold gbind, gret.
  destruct (new_node_cases del g I KConcat parents plates c L) as [(N & _)|(HI & g1 & St & K & E)];
    [congruence|]. rewrite E. destruct (plates_result g KConcat parents plates c) as [P|e]; eauto.
Qed.
Print Assumptions C31_concatenate_accepts_any.

(** ** A model that exercises the hypotheses: a constant, two stochastic nodes, a
    deterministic node between them, and an observed mask on some plates. *)
Definition chain_ops (mask : arr bool) : list gop :=
  [New KConst [] (Some []) default_class;
   New KStoch [0] (Some [3; 1]) default_class;
   New KDet [1; 0] None default_class;
   New KStoch [2] (Some [3; 2]) default_class;
   New KDet [2] None default_class;
   Observe 3 mask].
Definition chain_mask : arr bool := Arr [3; 2] (fun e => (e 1 =? 2) && (e 0 =? 1)).

Fixpoint legal_all (l : list gop) (g : graph) : Prop :=
  match l with
  | [] => True
  | o :: r => legal g o /\ legal_all r (fst (run_gop o g))
  end.

Lemma history_run : forall l del g g', history del g ->
  (forall o, In o l -> forall n, o <> Delete n) ->
  giter run_gop l g = (g', Ok tt) -> legal_all l g -> history del g'.
Proof.
  induction l as [|o l IH]; intros del g g' H N E L.
  - cbn in E. injection E as <-. exact H.
  - cbn [giter] in E. unfold gseq, gbind in E. destruct L as [L1 L2].
    destruct (run_gop o g) as [g1 [[]|e]] eqn:E1; [|discriminate].
    apply (IH del g1 g').
    + assert (H1 := history_step del g o g1 H L1 E1).
      destruct o as [| | |n]; auto. now destruct (N (Delete n) (or_introl eq_refl) n).
    + intros o' Ho. apply N. now right.
    + exact E.
    + exact L2.
Qed.

Lemma chain_history : history [] (run_all (chain_ops chain_mask) empty_graph) /\
  default_graph (run_all (chain_ops chain_mask) empty_graph).
Proof.
  split.
  - apply (history_run (chain_ops chain_mask) [] empty_graph).
    + apply history_start.
    + intros o Ho n. cbn in Ho. intuition (subst; discriminate).
    + vm_compute. reflexivity.
    + unfold chain_ops. cbn [legal_all legal].
      repeat match goal with |- _ /\ _ => split end;
        try (intros p Hp; cbn in Hp; intuition (subst; vm_compute; auto; lia));
        try congruence; try exact Logic.I; try (vm_compute; reflexivity); try (vm_compute; lia).
      all: try (split; [vm_compute; lia|intros k; right; vm_compute; reflexivity]).
      all: try (vm_compute; split; [lia|reflexivity]).
  - intros n Hn. vm_compute in Hn.
    do 5 (destruct n as [|n]; [split; [reflexivity|]; intros k;
      do 3 (destruct k as [|k]; [vm_compute; lia|]); destruct k; vm_compute; lia|]).
    exfalso. lia.
Qed.

(** The plate of node 1 that feeds the observed plate is active, the others are
    not. *)
Example C28_example :
  let g := run_all (chain_ops chain_mask) empty_graph in
  bget (msk (gnodes g 1)) (fun k => if k =? 1 then 2 else 0) = true /\
  bget (msk (gnodes g 1)) env0 = false /\
  kids (gnodes g 1) = [(2, 0)] /\ kids (gnodes g 2) = [(3, 0)] /\
  kids (gnodes g 4) = [] /\
  run_gop (New KStoch [1; 2] (Some [3; 2]) default_class) g = (g, Err ValueError) /\
  kids (gnodes g 3) = [] /\ knd (gnodes g 3) = KStoch.
Proof. cbv zeta. repeat split; vm_compute; reflexivity. Qed.
