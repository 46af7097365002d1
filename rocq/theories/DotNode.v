(** SumMultiply: operands of the parents, the moments and the messages in terms of positions. *)
From Coq Require Import List Arith ZArith Lia Bool Reals Lra Permutation FunctionalExtensionality.
From Verif Require Import Base Shapes SpecShapes ShapesLemmas NumPy MiscArray SpecArray TensorLemmas
  EinsumLemmas EinsumGen PlateSumLemmas PlateSum2Lemmas MessageLemmas NetworkLemmas GateLemmas PGate Dot SpecDot
  DotEinsum DotSum DotMessage DotAdjoint.
Import ListNotations.
Open Scope nat_scope.

Notation par := (list nat * pmom * bool)%type.
Definition xx_of (u : pmom) : arr R :=
  match u with MDelta x => x | MGaussian _ xx => xx | MGaussianGamma _ xx _ _ => xx end.

(** Shapes of the moments of a parent. *)
Definition mom_ok (P dims : shape) (c : bool) (u : pmom) : Prop :=
  match u with
  | MDelta x => c = true /\ variable_of P dims x
  | MGaussian x xx => c = false /\ variable_of P dims x /\ variable_of P (dims ++ dims) xx
  | MGaussianGamma x xx _ _ => c = false /\ variable_of P dims x /\ variable_of P (dims ++ dims) xx
  end.

(** Operands of a parent for the mean and for the second moment, with the shape of their variable. *)
Definition mopsd (D : nat) (second : bool) (z : par) (dims : shape) : list (arr R * list nat * shape) :=
  let '(keys, u, c) := z in
  if negb second then [(mom0 u, keys, dims)]
  else if c then [(mom0 u, map (Nat.add D) keys, dims); (mom0 u, keys, dims)]
  else [(xx_of u, map (Nat.add D) keys ++ keys, dims ++ dims)].
Definition mops (D : nat) (second : bool) (z : par) : list (arr R * list nat) :=
  let '(keys, u, c) := z in
  if negb second then [(mom0 u, keys)]
  else if c then [(mom0 u, map (Nat.add D) keys); (mom0 u, keys)]
  else [(xx_of u, map (Nat.add D) keys ++ keys)].
Lemma mops_mopsd : forall D second z dims, mops D second z = map fst (mopsd D second z dims).
Proof. intros D second [[keys u] c] dims. destruct second, c; reflexivity. Qed.

Definition twice (D : nat) (sz : nat -> nat) (k : nat) : nat := if k <? D then sz k else sz (k - D).
Definition nkeys (D : nat) (second : bool) : nat := if second then 2 * D else D.
Definition two (D : nat) (second : bool) (keys : list nat) : list nat :=
  if second then map (Nat.add D) keys ++ keys else keys.

(** Keys of a parent against the shape of its variable. *)
Definition keys_fit (D : nat) (sz : nat -> nat) (keys : list nat) (dims : shape) : Prop :=
  length dims = length keys /\ NoDup keys /\ (forall k, In k keys -> k < D) /\
  forall i, i < length keys -> ax dims i = 1 \/ ax dims i = sz (nth i (rev keys) 0).
Definition par_fits (P : shape) (D : nat) (sz : nat -> nat) (z : par) (dims : shape) : Prop :=
  let '(keys, u, c) := z in keys_fit D sz keys dims /\ mom_ok P dims c u.

Lemma keys_fit_fit : forall P D sz x keys dims, variable_of P dims x -> keys_fit D sz keys dims ->
  op_fits P D sz (x, keys) /\ plates_of (x, keys) <= length P.
Proof.
  intros P D sz x keys dims (V1 & V2 & V3) (L & N & B & S). unfold op_fits, plates_of. cbn [fst snd]. repeat split.
  - lia.
  - assumption.
  - intros i Hi. rewrite V2 by lia. now apply S.
  - intros j. destruct V3 as [_ V3]. specialize (V3 (length keys + j)). rewrite ax_app in V3.
    destruct (Nat.ltb_spec (length keys + j) (length dims)); [lia|].
    replace (length keys + j - length dims) with j in V3 by lia. assumption.
  - destruct V3 as [V3 _]. unfold ndim. rewrite app_length in V3. lia.
Qed.

Lemma twice_lt : forall D sz k, k < D -> twice D sz k = sz k.
Proof. intros. unfold twice. destruct (Nat.ltb_spec k D); [reflexivity|lia]. Qed.
Lemma twice_add : forall D sz k, twice D sz (D + k) = sz k.
Proof. intros. unfold twice. destruct (Nat.ltb_spec (D + k) D); [lia|]. f_equal. lia. Qed.

Lemma nth_rev_map : forall (f : nat -> nat) l i, i < length l -> nth i (rev (map f l)) 0 = f (nth i (rev l) 0).
Proof.
  intros f l i Hi. rewrite <- map_rev. rewrite (nth_indep _ 0 (f 0)) by (rewrite map_length, rev_length; lia). apply map_nth.
Qed.
Lemma nth_rev_two : forall D keys i, i < length keys ->
  nth i (rev (map (Nat.add D) keys ++ keys)) 0 = nth i (rev keys) 0.
Proof. intros. rewrite rev_app_distr. apply app_nth1. now rewrite rev_length. Qed.
Lemma nth_rev_two2 : forall D keys i, i < length keys ->
  nth (length keys + i) (rev (map (Nat.add D) keys ++ keys)) 0 = D + nth i (rev keys) 0.
Proof.
  intros. rewrite rev_app_distr. rewrite app_nth2; rewrite rev_length; [|lia].
  replace (length keys + i - length keys) with i by lia. now rewrite nth_rev_map.
Qed.

Lemma keys_fit_weak : forall D N sz keys dims, D <= N -> keys_fit D sz keys dims -> keys_fit N (twice D sz) keys dims.
Proof.
  intros D N sz keys dims HDN (L & ND & B & S). repeat split; try assumption.
  - intros k Hk. specialize (B k Hk). lia.
  - intros i Hi. rewrite twice_lt; [now apply S|]. apply B. now apply nth_rev_In.
Qed.
Lemma keys_fit_shift : forall D sz keys dims, keys_fit D sz keys dims ->
  keys_fit (2 * D) (twice D sz) (map (Nat.add D) keys) dims.
Proof.
  intros D sz keys dims (L & ND & B & S). repeat split.
  - now rewrite map_length.
  - apply FinFun.Injective_map_NoDup; [|assumption]. intros a b E. lia.
  - intros k Hk. apply in_map_iff in Hk as [x [<- Hx]]. specialize (B x Hx). lia.
  - intros i Hi. rewrite map_length in Hi. rewrite nth_rev_map by assumption. rewrite twice_add. now apply S.
Qed.
Lemma keys_fit_two : forall D sz keys dims, keys_fit D sz keys dims ->
  keys_fit (2 * D) (twice D sz) (map (Nat.add D) keys ++ keys) (dims ++ dims).
Proof.
  intros D sz keys dims H. pose proof (keys_fit_shift _ _ _ _ H) as (L1 & N1 & B1 & S1).
  pose proof (keys_fit_weak D (2 * D) sz keys dims ltac:(lia) H) as (L2 & N2 & B2 & S2).
  destruct H as (L & ND & B & S). repeat split.
  - rewrite !app_length, map_length. lia.
  - apply NoDup_app_intro; try assumption. intros x H1 H2. apply in_map_iff in H1 as [y [<- Hy]]. specialize (B _ H2). lia.
  - intros k Hk. apply in_app_or in Hk as [Hk|Hk]; auto.
  - intros i Hi. rewrite app_length, map_length in Hi. rewrite ax_app.
    destruct (Nat.ltb_spec i (length dims)).
    + rewrite nth_rev_two by lia. apply S2. lia.
    + rewrite L in *. assert (E : exists j, i = length keys + j /\ j < length keys) by (exists (i - length keys); lia).
      destruct E as (j & -> & Hj). replace (length keys + j - length keys) with j by lia.
      rewrite nth_rev_two2 by lia. rewrite twice_add. now apply S.
Qed.
Lemma keys_fit_nkeys : forall D sz second keys dims, keys_fit D sz keys dims ->
  keys_fit (nkeys D second) (twice D sz) (two D second keys) (if second then dims ++ dims else dims).
Proof.
  intros D sz [] keys dims H; unfold nkeys, two; [now apply keys_fit_two|apply keys_fit_weak; [lia|assumption]].
Qed.

Lemma mops_fit : forall P D sz second z dims, par_fits P D sz z dims -> forall q, In q (mops D second z) ->
  op_fits P (nkeys D second) (twice D sz) q /\ plates_of q <= length P.
Proof.
  intros P D sz second [[keys u] c] dims [K M] q Hq.
  assert (V0 : variable_of P dims (mom0 u)) by (destruct u; cbn in *; tauto).
  destruct second; cbn [negb mops] in Hq; unfold nkeys.
  - destruct c.
    + destruct Hq as [<-|[<-|[]]]; eapply keys_fit_fit; try eassumption.
      * now apply keys_fit_shift.
      * apply keys_fit_weak; [lia|assumption].
    + destruct Hq as [<-|[]]. eapply keys_fit_fit; [|apply keys_fit_two; exact K].
      destruct u; cbn in *; [destruct M; discriminate|tauto|tauto].
  - destruct Hq as [<-|[]]. eapply keys_fit_fit; [exact V0|]. apply keys_fit_weak; [lia|assumption].
Qed.

(** An axis of a parent is an axis of one of its operands. *)
Lemma mops_axis : forall P D sz second keys u c dims i, par_fits P D sz (keys, u, c) dims -> i < length keys ->
  (exists q i', In q (mops D second (keys, u, c)) /\ i' < length (snd q) /\ nth i' (rev (snd q)) 0 = nth i (rev keys) 0 /\
     ax (ash (fst q)) i' = ax dims i) /\
  (second = true -> exists q i', In q (mops D second (keys, u, c)) /\ i' < length (snd q) /\ nth i' (rev (snd q)) 0 = D + nth i (rev keys) 0 /\
     ax (ash (fst q)) i' = ax dims i).
Proof.
  intros P D sz second keys u c dims i [(L & K) M] Hi.
  assert (V0 : variable_of P dims (mom0 u)) by (destruct u; cbn in *; tauto).
  destruct second; cbn [mops negb].
  - destruct c.
    + split; [|intros _].
      * exists (mom0 u, keys), i. cbn [fst snd]. repeat split; [right; now left|assumption|]. apply V0. lia.
      * exists (mom0 u, map (Nat.add D) keys), i. cbn [fst snd]. rewrite map_length. repeat split; [now left|assumption|now apply nth_rev_map|]. apply V0. lia.
    + assert (V1 : variable_of P (dims ++ dims) (xx_of u)) by (destruct u; cbn in *; [destruct M; discriminate|tauto|tauto]).
      destruct V1 as (_ & V1 & _). rewrite app_length in V1.
      split; [|intros _].
      * exists (xx_of u, map (Nat.add D) keys ++ keys), i. cbn [fst snd]. rewrite app_length, map_length.
        repeat split; [now left|lia|now apply nth_rev_two|]. rewrite V1 by lia. rewrite ax_app.
        destruct (Nat.ltb_spec i (length dims)); [reflexivity|lia].
      * exists (xx_of u, map (Nat.add D) keys ++ keys), (length keys + i). cbn [fst snd]. rewrite app_length, map_length.
        repeat split; [now left|lia|now apply nth_rev_two2|]. rewrite V1 by lia. rewrite ax_app.
        destruct (Nat.ltb_spec (length keys + i) (length dims)); [lia|]. f_equal. lia.
  - split; [|discriminate]. exists (mom0 u, keys), i. cbn [fst snd]. repeat split; [now left|assumption|]. apply V0. lia.
Qed.

(** ** The node *)
Section Node.
Variables (P : shape) (D : nat) (sz : nat -> nat) (zs : list par) (dimss : list shape) (out : list nat).
Hypothesis zs_fit : Forall2 (par_fits P D sz) zs dimss.
Hypothesis zs_ne : zs <> [].
Hypothesis used : forall k, k < D -> exists z, In z zs /\ In k (fst (fst z)).
(** Key [k] has its length in a parent, or length one. *)
Definition attained (zs : list par) (dimss : list shape) (k : nat) : Prop :=
  exists z dims i, In (z, dims) (combine zs dimss) /\ i < length (fst (fst z)) /\ nth i (rev (fst (fst z))) 0 = k /\ ax dims i = sz k.
Hypothesis sized : forall k, k < D -> sz k = 1 \/ attained zs dimss k.
Hypothesis out_nodup : NoDup out.
Hypothesis out_lt : forall k, In k out -> k < D.

Definition all_ops (second : bool) : list (arr R * list nat) := flat_map (mops D second) zs.

Lemma in_combine_fit : forall zs dimss, Forall2 (par_fits P D sz) zs dimss -> forall z dims, In (z, dims) (combine zs dimss) -> par_fits P D sz z dims.
Proof. intros l l' H. induction H; intros z d Hin; [destruct Hin|]. destruct Hin as [E|Hin]; [congruence|auto]. Qed.
Lemma in_fit : forall zs dimss, Forall2 (par_fits P D sz) zs dimss -> forall z, In z zs -> exists dims, In (z, dims) (combine zs dimss).
Proof. intros l l' H. induction H; intros z Hin; [destruct Hin|]. destruct Hin as [->|Hin]; [eexists; now left|]. destruct (IHForall2 z Hin) as [d Hd]. exists d. now right. Qed.

Lemma all_fit : forall second q, In q (all_ops second) ->
  op_fits P (nkeys D second) (twice D sz) q /\ plates_of q <= length P.
Proof.
  intros second q Hq. unfold all_ops in Hq. apply in_flat_map in Hq as [z [Hz Hq]].
  destruct (in_fit _ _ zs_fit z Hz) as [dims Hd]. pose proof (in_combine_fit _ _ zs_fit _ _ Hd). eapply mops_fit; eassumption.
Qed.
Lemma all_used : forall second k, k < nkeys D second -> exists q, In q (all_ops second) /\ In k (snd q).
Proof.
  intros second k Hk.
  assert (G : forall k', k' < D -> exists z dims i, In (z, dims) (combine zs dimss) /\ In z zs /\ i < length (fst (fst z)) /\ nth i (rev (fst (fst z))) 0 = k').
  { intros k' Hk'. destruct (used k' Hk') as [z [Hz Hin]]. destruct (in_fit _ _ zs_fit z Hz) as [dims Hd].
    destruct (In_nth_rev _ _ Hin) as [i [Hi E]]. exists z, dims, i. auto. }
  assert (A : forall k' (b : bool), k' < D -> (b = true -> second = true) -> exists q, In q (all_ops second) /\ In (if b then D + k' else k') (snd q)).
  { intros k' b Hk' Hb. destruct (G k' Hk') as (z & dims & i & Hd & Hz & Hi & E). destruct z as [[keys u] c]. cbn [fst snd] in *.
    destruct (mops_axis P D sz second keys u c dims i (in_combine_fit _ _ zs_fit _ _ Hd) Hi) as [A1 A2].
    destruct b.
    - destruct (A2 (Hb eq_refl)) as (q & i' & Hq & Hi' & E' & _). exists q. split; [apply in_flat_map; eauto|].
      rewrite <- E, <- E'. now apply nth_rev_In.
    - destruct A1 as (q & i' & Hq & Hi' & E' & _). exists q. split; [apply in_flat_map; eauto|].
      rewrite <- E, <- E'. now apply nth_rev_In. }
  destruct (Nat.lt_ge_cases k D) as [H|H]; [apply (A k false); [assumption|discriminate]|].
  destruct second; cbn [nkeys] in Hk; [|lia]. destruct (A (k - D) true) as [q Hq]; [lia|reflexivity|].
  exists q. cbv iota in Hq. now replace (D + (k - D)) with k in Hq by lia.
Qed.
Lemma all_realized : forall second k, k < nkeys D second -> realized (twice D sz) (all_ops second) k.
Proof.
  intros second k Hk.
  assert (A : forall k' (b : bool), k' < D -> (b = true -> second = true) -> realized (twice D sz) (all_ops second) (if b then D + k' else k')).
  { intros k' b Hk' Hb. unfold realized.
    replace (twice D sz (if b then D + k' else k')) with (sz k') by (destruct b; [now rewrite twice_add|now rewrite twice_lt]).
    destruct (sized k' Hk') as [E|(z & dims & i & Hd & Hi & E & Es)]; [now left|right].
    pose proof (in_combine_l _ _ _ _ Hd) as Hz. destruct z as [[keys u] c]. cbn [fst snd] in *.
    destruct (mops_axis P D sz second keys u c dims i (in_combine_fit _ _ zs_fit _ _ Hd) Hi) as [A1 A2].
    destruct b.
    - destruct (A2 (Hb eq_refl)) as (q & i' & Hq & Hi' & E' & Ea). exists q, i'. subst k'. rewrite Ea.
      repeat split; [apply in_flat_map; eauto|assumption|assumption|assumption].
    - destruct A1 as (q & i' & Hq & Hi' & E' & Ea). exists q, i'. subst k'. rewrite Ea.
      repeat split; [apply in_flat_map; eauto|assumption|assumption|assumption]. }
  destruct (Nat.lt_ge_cases k D) as [H|H]; [apply (A k false); [assumption|discriminate]|].
  destruct second; cbn [nkeys] in Hk; [|lia]. pose proof (A (k - D) true ltac:(lia) ltac:(reflexivity)) as HA.
  cbv iota in HA. now replace (D + (k - D)) with k in HA by lia.
Qed.
Lemma out_two : forall second, NoDup (two D second out) /\ forall k, In k (two D second out) -> k < nkeys D second.
Proof.
  intros []; cbn [two nkeys]; [|auto]. split.
  - apply NoDup_app_intro; [|assumption|].
    + apply FinFun.Injective_map_NoDup; [|assumption]. intros a b E. lia.
    + intros x H1 H2. apply in_map_iff in H1 as [y [<- Hy]]. specialize (out_lt _ H2). lia.
  - intros k Hk. apply in_app_or in Hk as [Hk|Hk]; [apply in_map_iff in Hk as [x [<- Hx]]; specialize (out_lt x Hx); lia|].
    specialize (out_lt k Hk). lia.
Qed.
Lemma all_ne : forall second, all_ops second <> [].
Proof.
  intros second. unfold all_ops. destruct zs as [|[[keys u] c] r]; [contradiction|]. cbn [flat_map].
  destruct second, c; discriminate.
Qed.

Lemma moment_value : forall second, exists y,
  einsum (lab_ops (nkeys D second) (all_ops second))
         (down_keys (nkeys D second) (list_max (map plates_of (all_ops second))) ++ two D second out) = Ok y /\
  variable_of P (map (twice D sz) (two D second out)) y /\
  forall p L, plate_in P p -> (forall k, In k (two D second out) -> L k < twice D sz k) ->
    entry (two D second out) y p L =
    itersum (map (fun k => (k, twice D sz k)) (filter (fun k => negb (memb k (two D second out))) (seq 0 (nkeys D second))))
            (prod_entries (all_ops second) p) L.
Proof.
  intros second. destruct (out_two second) as [O1 O2].
  destruct (einsum_value P (nkeys D second) (twice D sz) (nkeys D second) (all_ops second) (le_n _)
    (fun q Hq => proj1 (all_fit second q Hq)) (two D second out) (all_realized second) (all_used second) O1 O2 (all_ne second))
    as (y & Ey & Hn & Hax & Hpl & Hv).
  exists y. split; [exact Ey|]. split.
  - unfold variable_of. rewrite map_length. split; [lia|]. split.
    + intros i Hi. rewrite Hax by assumption. unfold ax. rewrite <- map_rev.
      rewrite (nth_indep _ 1 (twice D sz 0)) by (rewrite map_length, rev_length; lia). now rewrite map_nth.
    + split.
      * fold (ndim y). rewrite app_length, map_length, Hn.
        assert (list_max (map plates_of (all_ops second)) <= length P).
        { apply list_max_le. apply Forall_forall. intros n Hin. apply in_map_iff in Hin as [q [<- Hq]]. now apply (all_fit second). }
        lia.
      * intros k. rewrite ax_app, map_length. destruct (Nat.ltb_spec k (length (two D second out))) as [H|H].
        -- right. rewrite Hax by assumption. unfold ax. rewrite <- map_rev.
           rewrite (nth_indep _ 1 (twice D sz 0)) by (rewrite map_length, rev_length; lia). now rewrite map_nth.
        -- specialize (Hpl (k - length (two D second out))). now replace (length (two D second out) + (k - length (two D second out))) with k in Hpl by lia.
  - intros p L Hp HL. apply Hv; assumption.
Qed.
End Node.
