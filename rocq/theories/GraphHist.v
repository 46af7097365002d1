(** The invariants hold along every history. *)
From Coq Require Import List Arith Lia Bool.
From Verif Require Import Base Shapes SpecShapes ShapesLemmas NumPy MiscArray SpecArray TensorLemmas
  EinsumLemmas MessageLemmas Graph SpecGraph GraphLemmas GraphLinks GraphInv GraphNew GraphDelete GraphMask.
Import ListNotations.

Lemma set_node_links : forall g n x, n < gsize g -> knd x = knd (gnodes g n) -> pars x = pars (gnodes g n) ->
  cls x = cls (gnodes g n) -> pls x = pls (gnodes g n) -> kids x = kids (gnodes g n) ->
  built x = built (gnodes g n) -> same_links g (set_node g n x).
Proof.
  intros g n x Hn H1 H2 H3 H4 H5 H6. split; [reflexivity|]. intros k. cbn.
  destruct (Nat.eqb_spec k n) as [->|N]; [|tauto]. repeat split; auto. lia.
Qed.

Lemma update_mask_links : forall fuel n g del, inv del g -> n < gsize g ->
  same_links g (fst (update_mask fuel n g)).
Proof.
  induction fuel as [|f IH]; intros n g del I Hn; cbn [update_mask]; [apply same_links_refl|].
  destruct (bind _ _) as [m|e]; cbn [fst]; [|apply same_links_refl].
  set (g1 := set_node g n (with_msk (gnodes g n) m)).
  assert (S1 : same_links g g1) by (apply set_node_links; auto).
  destruct (negb _); cbn [fst]; [exact S1|].
  assert (I1 : inv del g1) by (eapply inv_same_links; eassumption).
  assert (Q : forall l h, inv del h -> gsize h = gsize g -> (forall q, In q l -> q < gsize g) ->
             same_links h (fst (giter (update_mask f) l h))).
  { induction l as [|q l IHl]; intros h Ih Z B; cbn; [apply same_links_refl|].
    unfold gseq, gbind. assert (S : same_links h (fst (update_mask f q h))).
    { eapply IH; [exact Ih|]. rewrite Z. apply B. now left. }
    destruct (update_mask f q h) as [h1 [u|e]]; cbn in *; [|exact S].
    eapply same_links_trans; [exact S|]. apply IHl.
    - eapply inv_same_links; eassumption.
    - destruct S as [E _]. congruence.
    - intros r Hr. apply B. now right. }
  eapply same_links_trans; [exact S1|]. apply Q; [exact I1|reflexivity|].
  intros q Hq. apply (inv_older _ _ I) in Hq. lia.
Qed.

Lemma set_observed_links : forall n m g del, inv del g -> n < gsize g ->
  same_links g (fst (set_observed n m g)).
Proof.
  intros n m g del I Hn. unfold set_observed.
  assert (S1 : same_links g (set_node g n (with_obs (gnodes g n) m))) by (apply set_node_links; auto).
  destruct (knd (gnodes g n)); try apply same_links_refl.
  eapply same_links_trans; [exact S1|]. eapply update_mask_links; [|exact Hn].
  eapply inv_same_links; eassumption.
Qed.

Lemma new_node_value : forall k ps pl c g g' n, new_node k ps pl c g = (g', Ok n) -> n = gsize g.
Proof.
  intros k ps pl c g g' n H. unfold new_node, gbind in H. destruct (_ && _) in H; [discriminate|].
  destruct (_ (set_node _ _ _)) as [g1 [u|e]]; [|discriminate].
  destruct (bind _ _); [|discriminate]. congruence.
Qed.

Lemma run_new : forall k ps pl c g g', run_gop (New k ps pl c) g = (g', Ok tt) ->
  new_node k ps pl c g = (g', Ok (gsize g)).
Proof.
  intros k ps pl c g g' H. cbn [run_gop] in H. unfold gbind, gret in H.
  destruct (new_node k ps pl c g) as [h [n|e]] eqn:E; [|discriminate].
  injection H as ->. now rewrite (new_node_value _ _ _ _ _ _ _ E) in *.
Qed.

Lemma run_gop_inv : forall del g o g', inv del g -> legal g o -> run_gop o g = (g', Ok tt) ->
  inv (match o with Delete n => n :: del | _ => del end) g'.
Proof.
  intros del g o g' I L E. destruct o as [k ps pl c|n m|n|n].
  - apply run_new in E. now apply (new_node_inv del g I k ps pl c L).
  - destruct L as ((Hn & _) & _). pose proof (set_observed_links n m g del I Hn) as S.
    cbn [run_gop] in E. unfold observe in E. rewrite E in S. now apply (inv_same_links del g).
  - destruct L as ((Hn & _) & _). pose proof (set_observed_links n (scalar false) g del I Hn) as S.
    cbn [run_gop] in E. unfold unobserve in E. rewrite E in S. now apply (inv_same_links del g).
  - now apply (delete_inv del g).
Qed.

Lemma history_inv : forall del g, history del g -> inv del g.
Proof.
  intros del g H. induction H as [|del g o g' H IH L E]; [apply inv_empty|].
  now apply (run_gop_inv del g).
Qed.

(** ** Masks along histories *)
Section Masks.
Variable D : nat -> nat -> env -> env -> Prop.

Definition all_local (g : graph) : Prop := shaped g /\ forall k, k < gsize g -> local D g k.

Lemma set_observed_spec : forall del g n m, inv del g -> n < gsize g -> knd (gnodes g n) = KStoch ->
  broadcasts_to (ash m) (pls (gnodes g n)) -> faithful g D -> all_local g ->
  exists g', set_observed n m g = (g', Ok tt) /\ all_local g' /\ same_links g g' /\
    forall k, obs (gnodes g' k) = if k =? n then m else obs (gnodes g k).
Proof.
  intros del g n m I Hn Kn Hm F [Sh Lo]. unfold set_observed. rewrite Kn.
  set (g1 := set_node g n (with_obs (gnodes g n) m)).
  assert (S1 : same_links g g1) by (apply set_node_links; auto).
  assert (O1 : forall k, k <> n -> gnodes g1 k = gnodes g k).
  { intros k N. unfold g1. cbn. destruct (Nat.eqb_spec k n); [contradiction|reflexivity]. }
  assert (N1 : gnodes g1 n = with_obs (gnodes g n) m) by (unfold g1; cbn; now rewrite Nat.eqb_refl).
  assert (Ms : forall k, msk (gnodes g1 k) = msk (gnodes g k)).
  { intros k. destruct (Nat.eq_dec k n) as [->|N]; [now rewrite N1|now rewrite O1]. }
  assert (Pl : forall k, pls (gnodes g1 k) = pls (gnodes g k)).
  { intros k. destruct (Nat.eq_dec k n) as [->|N]; [now rewrite N1|now rewrite O1]. }
  destruct (update_mask_spec D (S n) n g1 del (fun k => k = n)) as (g' & E & M & Sh' & Lo').
  - now apply (inv_same_links del g).
  - lia.
  - exact Hn.
  - now apply (faithful_same D g).
  - intros k Hk. rewrite Ms, Pl. destruct (Nat.eq_dec k n) as [->|N].
    + rewrite N1. cbn. split; [now apply Sh|exact Hm].
    + rewrite O1 by assumption. now apply Sh.
  - intros k Hk Nk t Ht. rewrite Pl in Ht. rewrite O1 by assumption.
    rewrite (Lo k Hk t Ht).
    split; (intros [H|(d & e & H1 & H2 & H3 & H4)]; [now left|right]); exists d, e;
      rewrite Ms, Pl in *; auto.
  - exists g'. split; [exact E|]. destruct M as [M1 M2]. split; [split|].
    + exact Sh'.
    + intros k Hk. apply Lo'; [|tauto]. destruct M1 as [Z _]. cbn in Z. rewrite Z in Hk. exact Hk.
    + split; [now apply (same_links_trans g g1)|]. intros k. rewrite M2. cbn.
      destruct (Nat.eqb_spec k n); reflexivity.
Qed.

Lemma new_local : forall del g k ps pl c g', inv del g -> legal g (New k ps pl c) ->
  new_node k ps pl c g = (g', Ok (gsize g)) -> all_local g -> all_local g'.
Proof.
  intros del g k ps pl c g' I L E [Sh Lo].
  assert (I' : inv del g') by now apply (new_node_inv del g I k ps pl c L).
  destruct (new_node_cases del g I k ps pl c L) as [(_ & _ & E')|(_ & g1 & St & K & E')];
    rewrite E' in E; [discriminate|].
  destruct (plates_result g k ps pl c) as [P|e]; [|discriminate].
  injection E as <-.
  set (n := gsize g) in *. set (x := GNode k ps [] c P (scalar false) (scalar false) true).
  set (g' := set_node g1 n x) in *.
  assert (O1 : forall y, y <> n -> gnodes g' y = gnodes g1 y).
  { intros y N. unfold g'. cbn. destruct (Nat.eqb_spec y n); [contradiction|reflexivity]. }
  assert (N1 : gnodes g' n = x) by (unfold g'; cbn; now rewrite Nat.eqb_refl).
  assert (A : forall y, y <> n -> knd (gnodes g' y) = knd (gnodes g y) /\ pls (gnodes g' y) = pls (gnodes g y) /\
              obs (gnodes g' y) = obs (gnodes g y) /\ msk (gnodes g' y) = msk (gnodes g y) /\
              pars (gnodes g' y) = pars (gnodes g y)).
  { intros y N. rewrite O1 by assumption. destruct (proj2 St y) as (E1 & E2 & E3 & E4 & E5 & E6 & E7).
    rewrite E1, E2, E4, E5, E6. cbn. destruct (Nat.eqb_spec y n); [contradiction|]. tauto. }
  assert (Z : gsize g' = S n) by (destruct St as [Z _]; exact Z).
  assert (Sh' : shaped g').
  { intros y Hy. destruct (Nat.eq_dec y n) as [->|N].
    - rewrite N1. cbn. split; apply (scalar_broadcasts bool false).
    - destruct (A y N) as (_ & -> & -> & -> & _). apply Sh. lia. }
  split; [exact Sh'|].
  (* masks of newly attached nodes are False *)
  assert (New : forall y d e, y <> n -> In d (kids (gnodes g' y)) -> valid (pls (gnodes g' (fst d))) e ->
     bget (msk (gnodes g' (fst d))) e = true -> In d (kids (gnodes g y)) /\ fst d <> n).
  { intros y d e Ny Hd He Hm. rewrite O1 in Hd by assumption. apply K in Hd as [Hd|(Hk & i & q & Hq & HH)].
    - split; [exact Hd|]. apply (inv_kid_size _ _ _ _ I) in Hd as [Hd _]. unfold n. lia.
    - destruct (Nat.eq_dec (fst d) n) as [Ed|Ed].
      { exfalso. rewrite Ed in Hm. rewrite N1 in Hm. cbn in Hm. unfold bget in Hm. discriminate. }
      split; [|exact Ed]. destruct HH as [[_ ->]|(H1 & H2 & H3)]; [cbn in Ed; congruence|].
      destruct (A (fst d) Ed) as (E1 & E2 & E3 & E4 & E5).
      assert (Hdn : fst d < n).
      { apply up_le in H2.
        - apply nth_error_In in Hq. destruct L as [L1 _]. destruct (L1 q Hq) as [L2 _]. unfold n. lia.
        - intros a b. cbn. fold n. destruct (Nat.eqb_spec a n) as [->|Na]; cbn.
          + intros Hb. destruct L as [L1 _]. now destruct (L1 b Hb) as [L2 _].
          + apply (inv_older _ _ I). }
      unfold parent_of in H3. cbn in H1, H3. fold n in H1, H3. destruct (Nat.eqb_spec (fst d) n); [contradiction|].
      rewrite E4 in Hm. rewrite E2 in He. apply (Lo (fst d) Hdn e He) in Hm as [[Hm _]|(d2 & e2 & Hd2 & _)].
      { rewrite Hm in H1. discriminate. }
      apply kids_iff; [apply (inv_sound _ _ I)|]. split; [exact H3|].
      destruct d as [Y j]. cbn [fst snd] in *. apply (inv_det _ _ I Y j H1 (fun f => f)).
      + apply nth_error_Some. congruence.
      + intros EK. rewrite EK in Hd2. destruct Hd2. }
  intros y Hy t Ht. destruct (Nat.eq_dec y n) as [->|Ny].
  - rewrite N1. cbn. split; [unfold bget; cbn; discriminate|]. intros [[_ H]|(d & e & [] & _)].
    unfold bget in H. discriminate.
  - destruct (A y Ny) as (E1 & E2 & E3 & E4 & E5). rewrite E1, E3, E4. rewrite E2 in Ht.
    rewrite (Lo y ltac:(lia) t Ht). split; (intros [H|(d & e & H1 & H2 & H3 & H4)]; [now left|right]).
    + exists d, e. assert (Nd : fst d <> n).
      { apply (inv_kid_size _ _ _ _ I) in H1 as [H1 _]. unfold n. lia. }
      destruct (A (fst d) Nd) as (_ & -> & _ & -> & _). split; [|auto].
      rewrite O1 by assumption. apply K. now left.
    + destruct (New y d e Ny H1 H2 H4) as [H5 Nd]. exists d, e.
      destruct (A (fst d) Nd) as (_ & E6 & _ & E7 & _). rewrite E6, E7 in *. auto.
Qed.

(** Existing nodes keep their class, plates and parents. *)
Lemma new_faithful : forall del g k ps pl c g', inv del g -> legal g (New k ps pl c) ->
  new_node k ps pl c g = (g', Ok (gsize g)) -> faithful g' D -> faithful g D.
Proof.
  intros del g k ps pl c g' I L E F m i p [Hm Hb] Hp.
  destruct (new_node_cases del g I k ps pl c L) as [(_ & _ & E')|(_ & g1 & St & K & E')];
    rewrite E' in E; [discriminate|].
  destruct (plates_result g k ps pl c) as [P|e]; [|discriminate]. injection E as <-.
  assert (A : forall y, y < gsize g -> 
     gnodes (set_node g1 (gsize g) (GNode k ps [] c P (scalar false) (scalar false) true)) y = gnodes g1 y /\
     pls (gnodes g1 y) = pls (gnodes g y) /\ cls (gnodes g1 y) = cls (gnodes g y) /\
     pars (gnodes g1 y) = pars (gnodes g y) /\ built (gnodes g1 y) = built (gnodes g y)).
  { intros y Hy. cbn. destruct (Nat.eqb_spec y (gsize g)); [lia|]. split; [reflexivity|].
    destruct (proj2 St y) as (E1 & E2 & E3 & E4 & E5 & E6 & E7). rewrite E2, E3, E4, E7. cbn.
    destruct (Nat.eqb_spec y (gsize g)); [lia|]. tauto. }
  assert (Hpm : p < m) by (apply (inv_older _ _ I m); now apply nth_error_In in Hp).
  specialize (F m i p). destruct (A m Hm) as (A0 & A1 & A2 & A3 & A4).
  destruct (A p ltac:(lia)) as (B0 & B1 & _).
  unfold exists_node, parent_of in F. rewrite A0, B0 in F. rewrite A1, A2, A3, A4, B1 in F.
  apply F; [|exact Hp]. split; [|exact Hb]. cbn. destruct St as [Z _]. rewrite Z. cbn. lia.
Qed.

Lemma history_nil : forall (del : list nat) (g : graph) o, (match o with Delete n => n :: del | _ => del end) = @nil nat ->
  del = [] /\ forall n, o <> Delete n.
Proof. intros del g o H. destruct o; try (split; [exact H|discriminate]). discriminate. Qed.

Lemma history_local : forall g, history [] g -> faithful g D -> all_local g.
Proof.
  intros g H. remember [] as del eqn:Ed. revert Ed.
  induction H as [|del g o g' H IH L E]; intros Ed F.
  - split; intros k Hk; cbn in Hk; lia.
  - apply (history_nil del g o) in Ed as [-> Nd]. pose proof (history_inv _ _ H) as I.
    destruct o as [k ps pl c|n m|n|n].
    + apply run_new in E. apply (new_local [] g k ps pl c); auto. apply IH; [reflexivity|].
      eapply new_faithful; eauto.
    + destruct L as ((Hn & Hb) & Kn & Hm). pose proof (set_observed_links n m g [] I Hn) as S.
      cbn [run_gop] in E. unfold observe in E. rewrite E in S. cbn in S.
      assert (F0 : faithful g D).
      { apply (faithful_same D g'); [|exact F]. destruct S as [Z S]. split; [congruence|].
        intros k. destruct (S k) as (A1 & A2 & A3 & A4 & A5 & A6 & A7). repeat split; try congruence.
        intros. symmetry. apply A7. lia. }
      destruct (set_observed_spec [] g n m I Hn Kn Hm F0 (IH eq_refl F0)) as (h & E' & R & _).
      rewrite E in E'. injection E' as <-. exact R.
    + destruct L as ((Hn & Hb) & Kn). pose proof (set_observed_links n (scalar false) g [] I Hn) as S.
      cbn [run_gop] in E. unfold unobserve in E. rewrite E in S. cbn in S.
      assert (F0 : faithful g D).
      { apply (faithful_same D g'); [|exact F]. destruct S as [Z S]. split; [congruence|].
        intros k. destruct (S k) as (A1 & A2 & A3 & A4 & A5 & A6 & A7). repeat split; try congruence.
        intros. symmetry. apply A7. lia. }
      destruct (set_observed_spec [] g n (scalar false) I Hn Kn (scalar_broadcasts _ _ _) F0 (IH eq_refl F0))
        as (h & E' & R & _).
      rewrite E in E'. injection E' as <-. exact R.
    + now destruct (Nd n).
Qed.

(** Locally consistent masks are the masks of the specification. *)
Lemma local_active : forall g, inv [] g -> all_local g -> forall n t, n < gsize g ->
  valid (pls (gnodes g n)) t -> (bget (msk (gnodes g n)) t = true <-> active g D n t).
Proof.
  intros g I [Sh Lo].
  assert (Fwd : forall m n t, gsize g - n <= m -> n < gsize g -> valid (pls (gnodes g n)) t ->
                bget (msk (gnodes g n)) t = true -> active g D n t).
  { induction m as [|m IH]; intros n t Hm Hn Ht H; [lia|].
    apply (Lo n Hn t Ht) in H as [[H1 H2]|(d & e & H1 & H2 & H3 & H4)].
    - now apply active_observed.
    - pose proof (inv_kid_size _ _ _ _ I H1) as [Hs Hlt].
      apply active_descendant with (fst d) (snd d) e; auto.
      + split; [exact Hs|now apply (inv_built _ _ I)].
      + now apply (inv_sound _ _ I).
      + apply IH; auto. lia. }
  intros n t Hn Ht. split; [now apply (Fwd (gsize g - n))|].
  intros A. revert Hn Ht. induction A as [n p Hk Ho|n p m i c [Hm Hb] Hp Hc HD A IH]; intros Hn Ht.
  - apply (Lo n Hn p Ht). now left.
  - specialize (IH Hm Hc). apply (Lo n Hn p Ht). right. exists (m, i), c. cbn [fst snd].
    split; [|auto]. apply kids_iff; [apply (inv_sound _ _ I)|]. cbn [fst snd]. split; [exact Hp|].
    assert (Hl : i < length (pars (gnodes g m))) by (unfold parent_of in Hp; apply nth_error_Some; congruence).
    destruct (knd (gnodes g m)) eqn:Km.
    + rewrite (inv_const _ _ I m Km) in Hl. cbn in Hl. lia.
    + apply (inv_stoch _ _ I m i Km Hl). intros [].
    + apply (inv_det _ _ I m i); [now rewrite Km|tauto|exact Hl|].
      apply (Lo m Hm c Hc) in IH as [[IH _]|(d & e & H1 & _)]; [congruence|].
      intros E. rewrite E in H1. destruct H1.
    + apply (inv_det _ _ I m i); [now rewrite Km|tauto|exact Hl|].
      apply (Lo m Hm c Hc) in IH as [[IH _]|(d & e & H1 & _)]; [congruence|].
      intros E. rewrite E in H1. destruct H1.
Qed.
End Masks.
