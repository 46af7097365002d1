(** SumMultiply: transposing the second moments of the parents transposes the second moment of
    the node. *)
From Coq Require Import List Arith ZArith Lia Bool Reals Lra Permutation FunctionalExtensionality.
From Verif Require Import Base Shapes SpecShapes ShapesLemmas NumPy MiscArray SpecArray TensorLemmas
  EinsumLemmas EinsumGen PlateSumLemmas PlateSum2Lemmas ShapeOpsLemmas MessageLemmas SumMultiplyLemmas NetworkLemmas GateLemmas PGate ExpFamBound UpdateLemmas Dot SpecDot
  DotEinsum DotSum DotMessage DotAdjoint DotNode DotPart DotExpect DotInit DotFinal DotMoments ComputeMessage DotScale DotMsg ExpFamLemmas.
Import ListNotations.
Open Scope nat_scope.

(** [xx'] is the transpose of [xx]. *)
Definition transposed (P dims : shape) (xx xx' : arr R) : Prop :=
  forall p v w, plate_in P p -> valid dims v -> valid dims w ->
    bget xx' (join (length (dims ++ dims)) p (join (length dims) v w)) =
    bget xx (join (length (dims ++ dims)) p (join (length dims) w v)).

Definition swap (D k : nat) : nat := if k <? D then D + k else k - D.
Lemma swap_lt : forall D k, k < D -> swap D k = D + k.
Proof. intros D k H. unfold swap. now destruct (Nat.ltb_spec k D); [|lia]. Qed.
Lemma swap_add : forall D k, swap D (D + k) = k.
Proof. intros D k. unfold swap. destruct (Nat.ltb_spec (D + k) D); lia. Qed.
Lemma swap_range : forall D k, k < 2 * D -> swap D k < 2 * D.
Proof. intros D k H. unfold swap. destruct (Nat.ltb_spec k D); lia. Qed.
Lemma swap_inj : forall D a b, a < 2 * D -> b < 2 * D -> swap D a = swap D b -> a = b.
Proof. intros D a b. unfold swap. destruct (Nat.ltb_spec a D), (Nat.ltb_spec b D); lia. Qed.
Lemma swap_swap : forall D k, k < 2 * D -> swap D (swap D k) = k.
Proof. intros D k H. unfold swap. destruct (Nat.ltb_spec k D); [destruct (Nat.ltb_spec (D + k) D); lia|destruct (Nat.ltb_spec (k - D) D); lia]. Qed.
Lemma twice_swap : forall D sz k, k < 2 * D -> twice D sz (swap D k) = twice D sz k.
Proof.
  intros D sz k H. unfold swap. destruct (Nat.ltb_spec k D) as [Hk|Hk].
  - now rewrite twice_add, twice_lt.
  - rewrite twice_lt by lia. unfold twice. now destruct (Nat.ltb_spec k D); [lia|].
Qed.

Lemma bget_join_inner : forall (a : arr R) P d p v, broadcasts_to (ash a) (P ++ d) ->
  bget a (join (length d) p (clip d v)) = bget a (join (length d) p v).
Proof.
  intros a P d p v B. rewrite <- (bget_clip_out _ a (P ++ d) (join (length d) p (clip d v)) B), <- (bget_clip_out _ a (P ++ d) (join (length d) p v) B).
  f_equal. apply functional_extensionality. intros k. unfold clip, join. rewrite ax_app.
  destruct (Nat.ltb_spec k (length d)); [|reflexivity]. now destruct (ax d k =? 1).
Qed.
Lemma clip_join2 : forall d v w, clip (d ++ d) (join (length d) v w) = join (length d) (clip d v) (clip d w).
Proof.
  intros d v w. apply functional_extensionality. intros k. unfold clip, join. rewrite ax_app. now destruct (Nat.ltb_spec k (length d)).
Qed.
Lemma clip_keys : forall D sz keys dims (L : env), keys_fit D sz keys dims -> (forall k, In k keys -> L k < sz k) ->
  valid dims (clip dims (at_index (map L keys))).
Proof.
  intros D sz keys dims L (Ln & _ & B & S) HL k. unfold clip.
  destruct (Nat.ltb_spec k (length keys)) as [Hk|Hk].
  - destruct (Nat.eqb_spec (ax dims k) 1) as [E|E]; [lia|]. destruct (S k Hk) as [S1|S1]; [contradiction|]. rewrite S1.
    rewrite at_index_map by assumption. apply HL. now apply nth_rev_In.
  - rewrite ax_overflow by lia. cbn. lia.
Qed.
Lemma join_at_two : forall (d : shape) p (o o' : list nat), length o' = length d ->
  join (length (d ++ d)) p (at_index (o ++ o')) = join (length (d ++ d)) p (join (length d) (at_index o) (at_index o')).
Proof. intros d p o o' H. f_equal. rewrite <- H. apply Reindex.at_index_app. Qed.

Lemma F2_in_l : forall A B (Q : A -> B -> Prop) l l', Forall2 Q l l' -> forall a, In a l -> exists b, In b l' /\ Q a b.
Proof. intros A B Q l l' H. induction H; intros a []; subst; [exists y; split; [now left|assumption]|]. destruct (IHForall2 a H1) as (b & Ha & Hb). exists b. split; [now right|assumption]. Qed.

Section Swap.
Variables (P : shape) (D : nat) (sz : nat -> nat) .
Definition swapped (z z' : par) (dims : shape) : Prop :=
  let '(keys, u, c) := z in let '(keys', u', c') := z' in
  keys' = keys /\ c' = c /\ (c = true -> u' = u) /\ (c = false -> transposed P dims (xx_of u) (xx_of u')).

Lemma swapped_ops : forall z z' dims p L, par_fits P D sz z dims -> par_fits P D sz z' dims -> swapped z z' dims -> plate_in P p ->
  (forall k, k < 2 * D -> L k < twice D sz k) ->
  prod_entries (mops D true z') p L = prod_entries (mops D true z) p (fun k => L (swap D k)).
Proof.
  intros [[keys u] c] [[keys' u'] c'] dims p L [K M] [K' M'] (-> & -> & E1 & E2) Hp HL.
  assert (Hb : forall k, In k keys -> k < D) by apply K.
  assert (R1 : map (fun k => L (swap D k)) (map (Nat.add D) keys) = map L keys).
  { rewrite map_map. apply map_ext. intros k. now rewrite swap_add. }
  assert (R2 : map (fun k => L (swap D k)) keys = map L (map (Nat.add D) keys)).
  { rewrite map_map. apply map_ext_in. intros k Hk. now rewrite swap_lt by auto. }
  unfold mops, prod_entries. cbn [negb]. destruct c.
  - rewrite E1 by reflexivity. cbn [map fst snd]. unfold lprod. cbn [fold_right]. unfold entry. rewrite !map_length, R1, R2. ring.
  - specialize (E2 eq_refl). cbn [map fst snd]. unfold lprod. cbn [fold_right]. f_equal. unfold entry.
    assert (Ln : length dims = length keys) by apply K.
    assert (V : variable_of P (dims ++ dims) (xx_of u)) by (destruct u; cbn in M; intuition; discriminate).
    assert (V' : variable_of P (dims ++ dims) (xx_of u')) by (destruct u'; cbn in M'; intuition; discriminate).
    rewrite (map_app (fun k => L (swap D k))), R1, R2. rewrite (map_app L).
    replace (length (map (Nat.add D) keys ++ keys)) with (length (dims ++ dims)) by (rewrite !app_length, map_length; lia).
    rewrite !join_at_two by (rewrite !map_length; lia).
    rewrite <- (bget_join_inner _ P (dims ++ dims)) by apply V'. rewrite <- (bget_join_inner (xx_of u) P (dims ++ dims)) by apply V.
    rewrite !clip_join2. apply E2; [exact Hp| |].
    + replace (map L (map (Nat.add D) keys)) with (map (fun k => L (D + k)) keys) by (now rewrite map_map).
      apply (clip_keys D sz); [exact K|]. intros k Hk. specialize (HL (D + k)). rewrite twice_add in HL. specialize (Hb k Hk). apply HL. lia.
    + apply (clip_keys D sz); [exact K|]. intros k Hk. specialize (Hb k Hk). specialize (HL k ltac:(lia)). now rewrite twice_lt in HL.
Qed.


Lemma swapped_all : forall (ts : list (par * par)) dimss p L,
  Forall2 (fun t dims => par_fits P D sz (fst t) dims /\ par_fits P D sz (snd t) dims /\ swapped (fst t) (snd t) dims) ts dimss ->
  plate_in P p -> (forall k, k < 2 * D -> L k < twice D sz k) ->
  prod_entries (all_ops D (map snd ts) true) p L = prod_entries (all_ops D (map fst ts) true) p (fun k => L (swap D k)).
Proof.
  intros ts dimss p L H Hp HL. unfold all_ops. induction H as [|t dims ts dimss (H1 & H2 & H3) H IH]; [reflexivity|].
  cbn [map flat_map]. rewrite !prod_entries_app. f_equal; [|exact IH]. now apply (swapped_ops _ _ dims).
Qed.

Lemma swap_perm : forall (out : list nat), (forall k, In k out -> k < D) ->
  let K := filter (fun k => negb (memb k (two D true out))) (seq 0 (2 * D)) in
  Permutation (map (fun k => (k, twice D sz k)) K) (map (fun k => (swap D k, twice D sz k)) K).
Proof.
  intros out Ho K.
  assert (KB : forall k, In k K -> k < 2 * D) by (intros k Hk; apply filter_In in Hk as [Hk _]; apply in_seq in Hk; lia).
  assert (M : forall k, k < 2 * D -> In k (two D true out) -> In (swap D k) (two D true out)).
  { intros k Hk Hin. cbn [two] in *. apply in_or_app. apply in_app_or in Hin as [Hin|Hin].
    - apply in_map_iff in Hin as [j [<- Hj]]. right. now rewrite swap_add.
    - left. rewrite swap_lt by auto. now apply in_map. }
  assert (KS : forall k, In k K -> In (swap D k) K).
  { intros k Hk. pose proof (KB k Hk) as Hb. apply filter_In in Hk as [_ Hk]. apply filter_In. split.
    - apply in_seq. pose proof (swap_range D k Hb). lia.
    - apply negb_true_iff. apply negb_true_iff in Hk. destruct (memb (swap D k) (two D true out)) eqn:E; [|reflexivity].
      apply memb_In in E. apply M in E; [|now apply swap_range]. rewrite swap_swap in E by exact Hb. apply memb_In in E. congruence. }
  transitivity (map (fun k => (k, twice D sz k)) (map (swap D) K)).
  - apply Permutation_map. apply NoDup_Permutation_bis.
    + apply NoDup_filter, seq_NoDup.
    + now rewrite map_length.
    + intros k Hk. apply in_map_iff. exists (swap D k). split; [apply swap_swap; auto|auto].
  - rewrite map_map. erewrite map_ext_in; [apply Permutation_refl|]. intros k Hk. cbn. now rewrite twice_swap by auto.
Qed.

(** The sum with transposed parents. *)
Lemma swapped_sum : forall (ts : list (par * par)) dimss (out : list nat) p L,
  Forall2 (fun t dims => par_fits P D sz (fst t) dims /\ par_fits P D sz (snd t) dims /\ swapped (fst t) (snd t) dims) ts dimss ->
  (forall k, In k out -> k < D) -> plate_in P p -> (forall k, In k (two D true out) -> L k < twice D sz k) ->
  let K := map (fun k => (k, twice D sz k)) (filter (fun k => negb (memb k (two D true out))) (seq 0 (nkeys D true))) in
  itersum K (prod_entries (all_ops D (map snd ts) true) p) L =
  itersum K (prod_entries (all_ops D (map fst ts) true) p) (fun k => L (swap D k)).
Proof.
  intros ts dimss out p L H Ho Hp HL. unfold nkeys. cbv zeta.
  set (K0 := filter (fun k => negb (memb k (two D true out))) (seq 0 (2 * D))).
  assert (KB : forall k, In k K0 -> k < 2 * D) by (intros k Hk; apply filter_In in Hk as [Hk _]; apply in_seq in Hk; lia).
  rewrite (itersum_ext _ _ (fun L => prod_entries (all_ops D (map fst ts) true) p (fun k => L (swap D k)))).
  - rewrite (itersum_perm _ _ _ (swap_perm out Ho)).
    + apply (itersum_rename_on (swap D) (seq 0 (2 * D))).
      * apply prod_entries_reads. intros q k Hq Hk. unfold all_ops in Hq. apply in_flat_map in Hq as (z & Hz & Hq).
        apply in_map_iff in Hz as (t & <- & Ht). destruct (F2_in_l _ _ _ _ _ H t Ht) as (dims & _ & (H1 & _)).
        destruct (mops_fit P D sz true (fst t) dims H1 q Hq) as [(_ & Hb & _) _]. specialize (Hb k Hk). cbn [nkeys] in Hb. apply in_seq. lia.
      * intros a b Ha Hb. apply in_seq in Ha, Hb. apply swap_inj; lia.
      * intros k Hk. apply in_seq. specialize (KB k Hk). lia.
    + fold K0. rewrite map_map. cbn [fst]. rewrite map_id. apply NoDup_filter, seq_NoDup.
  - intros e He1 He2. apply (swapped_all ts dimss); [exact H|exact Hp|]. intros k Hk.
    destruct (memb k (two D true out)) eqn:Em.
    + rewrite He1; [now apply HL, memb_In|]. rewrite map_map. cbn [fst]. rewrite map_id.
      intros Hin. apply filter_In in Hin as [_ Hin]. apply negb_true_iff in Hin. congruence.
    + assert (Hin : In (k, twice D sz k) (map (fun k => (k, twice D sz k)) K0)).
      { apply in_map_iff. exists k. split; [reflexivity|]. apply filter_In. split; [apply in_seq; lia|now rewrite Em]. }
      destruct (He2 k _ Hin) as [Hr|[m [Hm Hr]]]; [assumption|]. apply in_map_iff in Hm as [j [E _]]. injection E as -> <-. assumption.
Qed.
End Swap.

Section Node.
Variables (P : shape) (full : list nat) (nodes : list (shape * pkind)).
Variables (keysets : list (list nat)) (keys_out : list nat) (size : nat -> nat) (ts : list (pmom * pmom)) (gamma : bool).
Hypothesis full_ok : enumerates full keysets.
Hypothesis args_ok : valid_arguments (map fst nodes) keysets keys_out.
Hypothesis size_is : forall k, In k (concat keysets) -> key_length (map fst nodes) keysets k (size k).
Definition transposed_pair (nd : shape * pkind) (t : pmom * pmom) : Prop :=
  mom_ok P (fst nd) (is_delta (snd nd)) (fst t) /\ mom_ok P (fst nd) (is_delta (snd nd)) (snd t) /\
  (is_delta (snd nd) = true -> snd t = fst t) /\
  (is_delta (snd nd) = false -> transposed P (fst nd) (xx_of (fst t)) (xx_of (snd t))).
Hypothesis ts_ok : Forall2 transposed_pair nodes ts.
Notation D := (length full).
Notation sz := (sz full size).
Notation out := (out full keys_out).
Notation kss := (map (map (pos full)) keysets).
Notation shp := (map size keys_out).
Notation g := (SM kss out D (deltas nodes) gamma shp).

Lemma pairs_of : forall kss0 nodes0 ts0,
  Forall2 (fun ks (nd : shape * pkind) => keys_fit D sz ks (fst nd)) kss0 nodes0 -> Forall2 transposed_pair nodes0 ts0 ->
  exists ps : list (par * par), map fst ps = zip3 kss0 (map fst ts0) (deltas nodes0) /\ map snd ps = zip3 kss0 (map snd ts0) (deltas nodes0) /\
    Forall2 (fun t dims => par_fits P D sz (fst t) dims /\ par_fits P D sz (snd t) dims /\ swapped P (fst t) (snd t) dims) ps (map fst nodes0).
Proof.
  intros kss0 nodes0 ts0 H. revert ts0. induction H as [|ks nd kss0 nodes0 H1 H2 IH]; intros ts0 HT; inversion HT as [|? t ? ts' (T1 & T2 & T3 & T4) T5]; subst.
  - exists []. repeat split; constructor.
  - destruct (IH _ T5) as (ps & E1 & E2 & E3). exists (((ks, fst t, is_delta (snd nd)), (ks, snd t, is_delta (snd nd))) :: ps).
    unfold zip3 in *. cbn [map combine fst snd]. rewrite E1, E2. split; [reflexivity|]. split; [reflexivity|]. constructor; [|exact E3].
    cbn [fst snd]. repeat split; try assumption; apply H1.
Qed.

Lemma second_transposed : exists y y', sm_second g (map fst ts) = Ok y /\ sm_second g (map snd ts) = Ok y' /\ transposed P shp y y'.
Proof.
  assert (Lk : length keysets = length nodes) by (destruct args_ok as (_ & F & _); apply F2_length in F; rewrite map_length in F; lia).
  assert (KF : Forall2 (fun ks (nd : shape * pkind) => keys_fit D sz ks (fst nd)) kss nodes).
  { apply Forall2_nth_intro; [now rewrite map_length|]. intros n ks nd H1 H2. rewrite nth_error_map in H1.
    destruct (nth_error keysets n) as [k|] eqn:E; [|discriminate]. cbn in H1. injection H1 as <-.
    eapply keys_fit_pos; try eassumption. rewrite nth_error_map, H2. reflexivity. }
  pose proof (out_is_nodup full (map fst nodes) keysets keys_out full_ok args_ok) as On.
  pose proof (out_is_lt full (map fst nodes) keysets keys_out full_ok args_ok) as Ol.
  pose proof (shape_pos full (map fst nodes) keysets keys_out size full_ok args_ok true) as Sp. cbn iota in Sp.
  pose proof (F2_length _ _ _ _ _ ts_ok) as Lt.
  destruct (pairs_of kss nodes ts KF ts_ok) as (ps & E1 & E2 & HP).
  assert (MZ : forall us, length us = length nodes -> map (fun z : par => fst (fst z)) (zip3 kss us (deltas nodes)) = kss).
  { intros us Hus. assert (Lm : length kss = length us) by (rewrite map_length; lia). clear -Hus Lm. revert Hus Lm. generalize kss. revert us.
    induction nodes as [|nd l IH]; intros [|u us] [|ks k0] Hu Hk; try discriminate; [reflexivity|]. unfold zip3 in *. cbn [map combine fst snd].
    f_equal. apply IH; cbn in *; lia. }
  assert (NE : nodes <> []) by (destruct args_ok as (N & _); intros E; apply N; now rewrite E).
  assert (F1 : Forall2 (par_fits P D sz) (map fst ps) (map fst nodes)) by (clear -HP; induction HP as [|? ? ? ? (A & B & C) ? ?]; constructor; assumption).
  assert (F2 : Forall2 (par_fits P D sz) (map snd ps) (map fst nodes)) by (clear -HP; induction HP as [|? ? ? ? (A & B & C) ? ?]; constructor; assumption).
  assert (N1 : map fst ps <> []) by (intros E; rewrite E in F1; inversion F1 as [E'|]; destruct nodes; [now apply NE|discriminate]).
  assert (N2 : map snd ps <> []) by (intros E; rewrite E in F2; inversion F2 as [E'|]; destruct nodes; [now apply NE|discriminate]).
  assert (K1 : map (fun z : par => fst (fst z)) (map fst ps) = kss) by (rewrite E1; apply MZ; rewrite map_length; lia).
  assert (K2 : map (fun z : par => fst (fst z)) (map snd ps) = kss) by (rewrite E2; apply MZ; rewrite map_length; lia).
  destruct (moment_value P D sz (map fst ps) (map fst nodes) out F1 N1 (used_pos full keysets full_ok _ K1)
    (attained_pos full _ keysets keys_out size full_ok args_ok size_is _ K1) On Ol true) as (y & Ey & Vy & Hy).
  destruct (moment_value P D sz (map snd ps) (map fst nodes) out F2 N2 (used_pos full keysets full_ok _ K2)
    (attained_pos full _ keysets keys_out size full_ok args_ok size_is _ K2) On Ol true) as (y' & Ey' & Vy' & Hy').
  exists y, y'. split; [|split].
  - destruct (second_ops P D sz _ _ F1) as (counts & ops & A1 & A2 & A3 & A4).
    unfold sm_second. cbn [sm_nkeys sm_in sm_out sm_const]. rewrite <- E1, A1. cbn [bind]. rewrite A2. cbn [bind]. rewrite A3, A4. exact Ey.
  - destruct (second_ops P D sz _ _ F2) as (counts & ops & A1 & A2 & A3 & A4).
    unfold sm_second. cbn [sm_nkeys sm_in sm_out sm_const]. rewrite <- E2, A1. cbn [bind]. rewrite A2. cbn [bind]. rewrite A3, A4. exact Ey'.
  - intros p v w Hp Hv Hw.
    set (pk := fun k => match find (fun i => nth i (rev out) 0 =? k) (seq 0 (length out)) with Some i => i | None => 0 end).
    assert (PK : forall i, i < length out -> pk (nth i (rev out) 0) = i).
    { intros i Hi. unfold pk. destruct (find _ _) as [j|] eqn:E.
      - apply find_some in E as [E3 E4]. apply Nat.eqb_eq in E4. apply in_seq in E3.
        apply (proj1 (NoDup_nth (rev out) 0) (NoDup_rev On)) in E4; rewrite ?rev_length; lia.
      - exfalso. pose proof (find_none _ _ E i ltac:(apply in_seq; lia)) as H. cbn in H. now rewrite Nat.eqb_refl in H. }
    set (L := fun k => if k <? D then w (pk k) else v (pk (k - D))).
    assert (Lout : length out = length shp) by (unfold DotFinal.out; now rewrite !map_length).
    assert (AL : forall u f, valid shp u -> (forall i, i < length out -> f (nth i (rev out) 0) = u i) -> at_index (map f out) = u).
    { intros u f Hu Hf. apply functional_extensionality. intros i. destruct (Nat.ltb_spec i (length out)) as [Hi|Hi].
      - rewrite at_index_map by exact Hi. now apply Hf.
      - specialize (Hu i). rewrite ax_overflow in Hu by lia. unfold at_index, ax. rewrite nth_overflow by (rewrite rev_length, map_length; lia). lia. }
    assert (NB : forall i, i < length out -> nth i (rev out) 0 < D) by (intros i Hi; apply Ol; now apply nth_rev_In).
    assert (AW : at_index (map L out) = w).
    { apply AL; [exact Hw|]. intros i Hi. unfold L. destruct (Nat.ltb_spec (nth i (rev out) 0) D); [now rewrite PK|specialize (NB i Hi); lia]. }
    assert (AV : at_index (map (fun k => L (D + k)) out) = v).
    { apply AL; [exact Hv|]. intros i Hi. unfold L. destruct (Nat.ltb_spec (D + nth i (rev out) 0) D); [lia|].
      replace (D + nth i (rev out) 0 - D) with (nth i (rev out) 0) by lia. now rewrite PK. }
    assert (HL : forall k, In k (two D true out) -> L k < twice D sz k).
    { assert (SB : forall u i, valid shp u -> i < length out -> u i < sz (nth i (rev out) 0)).
      { intros u i Hu Hi. specialize (Hu i).
        assert (Sp' : shp = map sz out).
        { cbn [two] in Sp. rewrite map_app, map_map in Sp.
          rewrite (map_ext _ sz) in Sp by (intros k; apply twice_add). rewrite (map_ext_in (twice D sz) sz) in Sp by (intros k Hk; apply twice_lt; auto).
          assert (Q : length (map sz out) = length shp) by (rewrite map_length; exact Lout).
          assert (X : forall (a b c d : list nat), length a = length c -> a ++ b = c ++ d -> a = c).
          { intros a. induction a as [|x a IH]; intros b [|z c] d HLl HE; try discriminate; [reflexivity|]. injection HE as <- HE. f_equal. eapply IH; [|exact HE]. now injection HLl. }
          symmetry. eapply X; [exact Q|exact Sp]. }
        rewrite Sp' in Hu. unfold ax in Hu. rewrite <- map_rev in Hu. rewrite (nth_indep _ 1 (sz 0)) in Hu by (rewrite map_length, rev_length; exact Hi).
        now rewrite map_nth in Hu. }
      assert (IX : forall k, In k out -> exists i, i < length out /\ nth i (rev out) 0 = k).
      { intros k Hk. apply in_rev in Hk. destruct (In_nth _ _ 0 Hk) as (i & Hi & E). rewrite rev_length in Hi. eauto. }
      intros k Hk. cbn [two] in Hk. apply in_app_or in Hk as [Hk|Hk].
      - apply in_map_iff in Hk as (j & <- & Hj). destruct (IX j Hj) as (i & Hi & <-). rewrite twice_add. unfold L.
        destruct (Nat.ltb_spec (D + nth i (rev out) 0) D); [lia|]. replace (D + nth i (rev out) 0 - D) with (nth i (rev out) 0) by lia.
        rewrite PK by exact Hi. now apply SB.
      - destruct (IX k Hk) as (i & Hi & <-). pose proof (NB i Hi) as Hb. rewrite twice_lt by exact Hb. unfold L.
        destruct (Nat.ltb_spec (nth i (rev out) 0) D); [|lia]. rewrite PK by exact Hi. now apply SB. }
    assert (HL' : forall k, In k (two D true out) -> L (swap D k) < twice D sz k).
    { intros k Hk. assert (Hb : k < 2 * D).
      { cbn [two] in Hk. apply in_app_or in Hk as [Hk|Hk]; [apply in_map_iff in Hk as (j & <- & Hj); specialize (Ol j Hj); lia|specialize (Ol k Hk); lia]. }
      rewrite <- (twice_swap D sz k Hb). apply HL. cbn [two] in *. apply in_or_app. apply in_app_or in Hk as [Hk|Hk].
      - apply in_map_iff in Hk as [j [<- Hj]]. right. now rewrite swap_add.
      - left. rewrite swap_lt by auto. now apply in_map. }
    specialize (Hy' p L Hp HL). specialize (Hy p (fun k => L (swap D k)) Hp HL').
    rewrite (swapped_sum P D sz ps (map fst nodes) out p L HP Ol Hp HL) in Hy'. rewrite <- Hy in Hy'. clear Hy.
    unfold entry in Hy'. cbn [two] in Hy'. rewrite !map_app, !map_map in Hy'.
    rewrite (map_ext (fun k => L (swap D (D + k))) L) in Hy' by (intros k; now rewrite swap_add).
    rewrite (map_ext_in (fun k => L (swap D k)) (fun k => L (D + k))) in Hy' by (intros k Hk; now rewrite swap_lt by auto).
    replace (length (map (Nat.add D) out ++ out)) with (length (shp ++ shp)) in Hy' by (rewrite !app_length; rewrite (map_length (Nat.add D)); lia).
    rewrite !join_at_two in Hy' by (rewrite map_length; exact Lout). rewrite AW, AV in Hy'. exact Hy'.
Qed.
End Node.
