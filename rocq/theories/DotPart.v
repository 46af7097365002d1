(** One message of SumMultiply to a parent. *)
From Coq Require Import List Arith ZArith Lia Bool Reals Lra Permutation FunctionalExtensionality.
From Verif Require Import Base Shapes SpecShapes ShapesLemmas NumPy MiscArray SpecArray TensorLemmas
  EinsumLemmas EinsumGen PlateSumLemmas PlateSum2Lemmas MessageLemmas NetworkLemmas GateLemmas PGate ExpFamBound UpdateLemmas Dot SpecDot
  DotEinsum DotSum DotMessage DotAdjoint DotNode.
Import ListNotations.
Open Scope nat_scope.

Lemma ax_firstn : forall s n j, n <= length s -> ax (firstn n s) j = ax s (length s - n + j).
Proof.
  intros s n j H. replace (ax s (length s - n + j)) with (ax (firstn n s ++ skipn n s) (length s - n + j)) by (now rewrite firstn_skipn).
  rewrite ax_app, skipn_length. destruct (Nat.ltb_spec (length s - n + j) (length s - n)); [lia|]. f_equal. lia.
Qed.
Lemma map_add_comm : forall D l, map (fun k => k + D) l = map (Nat.add D) l.
Proof. intros. apply map_ext. intros. lia. Qed.

(** Plates of an operand as a shape. *)
Definition has_plates (pl : shape) (q : arr R * list nat) : Prop :=
  length pl = plates_of q /\ forall j, ax pl j = ax (ash (fst q)) (length (snd q) + j).

Lemma firstn_plates : forall x keys n, n = ndim x - length keys -> length keys <= ndim x -> has_plates (firstn n (ash x)) (x, keys).
Proof.
  intros x keys n -> H. unfold has_plates, plates_of. cbn [fst snd]. unfold ndim in *. split.
  - rewrite firstn_length. lia.
  - intros j. rewrite ax_firstn by lia. f_equal. lia.
Qed.

Lemma other_ops_ok : forall P D sz second z dims, par_fits P D sz z dims ->
  exists ops pl, sm_other_ops D second z = Ok (lab_ops (S (nkeys D second)) ops, pl) /\
    (forall q, In q ops -> has_plates pl q) /\ (exists q, In q ops) /\ Permutation ops (mops D second z).
Proof.
  intros P D sz second [[keys u] c] dims [(L & _) M].
  assert (V0 : variable_of P dims (mom0 u)) by (destruct u; cbn in *; tauto).
  assert (A0 : length keys <= ndim (mom0 u)) by (destruct V0; lia).
  unfold sm_other_ops. destruct second; cbn [nkeys negb].
  - destruct c.
    + cbn [bind negb]. exists [(mom0 u, keys); (mom0 u, map (Nat.add D) keys)], (firstn (ndim (mom0 u) - length keys) (ash (mom0 u))).
      split.
      { unfold lab_ops, lab_op. cbn [map fst snd]. now rewrite map_add_comm, map_length. }
      split.
      { intros q [<-|[<-|[]]]; apply firstn_plates; rewrite ?map_length; auto. }
      split; [eexists; now left|]. cbn [mops negb]. apply perm_swap.
    + destruct u as [x|x xx|x xx a la]; [destruct M; discriminate| |].
      all: cbn [bind negb mom1 mom0]; destruct M as (_ & _ & V1).
      all: exists [(xx, map (Nat.add D) keys ++ keys)], (firstn (ndim xx - 2 * length keys) (ash xx)).
      all: assert (A1 : 2 * length keys <= ndim xx) by (destruct V1 as [V1 _]; rewrite app_length in V1; lia).
      all: split; [unfold lab_ops, lab_op; cbn [map fst snd]; rewrite map_add_comm, app_length, map_length; do 7 f_equal; lia|].
      all: split; [intros q [<-|[]]; apply firstn_plates; rewrite app_length, map_length; lia|].
      all: split; [eexists; now left|]; cbn [mops negb xx_of]; apply Permutation_refl.
  - replace (if c then length keys else length keys) with (length keys) by (now destruct c).
    replace (if c then Ok (mom0 u) else Ok (mom0 u)) with (Ok (mom0 u)) by (now destruct c).
    cbn [bind]. exists [(mom0 u, keys)], (firstn (ndim (mom0 u) - length keys) (ash (mom0 u))).
    split; [reflexivity|]. split; [intros q [<-|[]]; now apply firstn_plates|].
    split; [eexists; now left|]. apply Permutation_refl.
Qed.

Lemma other_ops_all : forall P D sz second zs dimss, Forall2 (par_fits P D sz) zs dimss ->
  exists os ops, mapM (sm_other_ops D second) zs = Ok os /\ concat (map fst os) = lab_ops (S (nkeys D second)) ops /\
    Permutation ops (flat_map (mops D second) zs) /\
    (forall pl, In pl (map snd os) -> exists q, In q ops /\ has_plates pl q) /\
    (forall q, In q ops -> exists pl, In pl (map snd os) /\ has_plates pl q).
Proof.
  intros P D sz second zs dimss H. induction H as [|z dims zs dimss Hz _ IH].
  - exists [], []. repeat split; [constructor| |]; intros ? [].
  - destruct IH as (os & ops & E & Ec & Hp & H1 & H2).
    destruct (other_ops_ok P D sz second z dims Hz) as (o & pl & E' & Hq & [q0 Hq0] & Hp').
    exists ((lab_ops (S (nkeys D second)) o, pl) :: os), (o ++ ops). cbn [mapM map concat flat_map fst snd].
    rewrite E'. cbn [bind]. rewrite E. cbn [bind]. split; [reflexivity|]. split.
    { rewrite Ec. unfold lab_ops. now rewrite map_app. }
    split; [now apply Permutation_app|]. split.
    + intros p [<-|Hp1]; [exists q0; split; [apply in_or_app; now left|auto]|].
      destruct (H1 p Hp1) as [q [Hin Hh]]. exists q. split; [apply in_or_app; now right|assumption].
    + intros q Hin. apply in_app_or in Hin as [Hin|Hin]; [exists pl; split; [now left|auto]|].
      destruct (H2 q Hin) as [p [Hp1 Hh]]. exists p. split; [now right|assumption].
Qed.

Lemma fold_plates : forall P shapes acc, broadcasts_to acc P -> (forall s, In s shapes -> broadcasts_to s P) ->
  exists r, foldM (fun acc s => broadcasted_shape [acc; s]) acc shapes = Ok r /\ broadcasts_to r P /\
    forall j, ax r j = 1 <-> (ax acc j = 1 /\ forall s, In s shapes -> ax s j = 1).
Proof.
  intros P. induction shapes as [|s r IH]; intros acc HA HS.
  - exists acc. cbn [foldM]. repeat split; try (apply HA); try tauto; intros s [].
  - cbn [foldM].
    assert (BT : forall a, In a [acc; s] -> broadcasts_to a P) by (intros a [<-|[<-|[]]]; [assumption|apply HS; now left]).
    destruct (broadcast_exists_of_upper _ _ BT) as [x Hx]. rewrite Hx. cbn [bind].
    apply broadcasted_shape_ok in Hx as NB. pose proof (nb_upper _ _ _ NB BT) as HB.
    destruct (IH x HB) as (y & Ey & By & Hy); [intros; apply HS; now right|].
    exists y. split; [exact Ey|]. split; [assumption|]. intros j. rewrite Hy, (nb_ax_1 _ _ _ NB). split.
    + intros [H1 H2]. split; [apply H1; now left|]. intros s' [<-|Hs]; [apply H1; right; now left|auto].
    + intros [H1 H2]. split; [|intros; apply H2; now right]. intros a [<-|[<-|[]]]; [assumption|apply H2; now left].
Qed.

Lemma prod_entries_perm : forall ops ops' p L, Permutation ops ops' -> prod_entries ops p L = prod_entries ops' p L.
Proof.
  intros ops ops' p L H. unfold prod_entries, lprod. induction H; cbn [map fold_right]; [reflexivity|congruence|ring|congruence].
Qed.
Lemma lprod_app : forall a b, lprod (a ++ b) = (lprod a * lprod b)%R.
Proof. induction a as [|x a IH]; intros b; unfold lprod in *; cbn [app fold_right]; [ring|]. rewrite IH. ring. Qed.
Lemma prod_entries_app : forall a b p L, prod_entries (a ++ b) p L = (prod_entries a p L * prod_entries b p L)%R.
Proof. intros. unfold prod_entries. now rewrite map_app, lprod_app. Qed.

(** Axes of a message. *)
Lemma plate_label_unit : forall P N sz base ops j, N <= base -> (forall q, In q ops -> op_fits P N sz q) ->
  (msize base ops (base + j) = 1 <-> forall q, In q ops -> ax (ash (fst q)) (length (snd q) + j) = 1).
Proof.
  intros P N sz base ops j Hb Hf. unfold msize. split.
  - intros H. apply (unit_label_plate P N sz base ops Hb Hf). intros Hin. apply memb_In in Hin. now rewrite Hin in H.
  - intros H. destruct (memb (base + j) (op_labels (lab_ops base ops))) eqn:E; [|reflexivity]. apply memb_In in E.
    pose proof (label_ok P N sz base ops Hb Hf _ E) as E'. apply bdim_ok in E' as [_ [E'|E']]; [assumption|].
    apply (plate_dims P N sz base ops Hb Hf) in E' as (q & Hq & _ & ->). now apply H.
Qed.

Lemma others_app : forall A (l1 l2 : list A) x, others (length l1) (l1 ++ x :: l2) = l1 ++ l2.
Proof.
  intros A l1 l2 x. unfold others. rewrite firstn_app, Nat.sub_diag, firstn_all. cbn [firstn]. rewrite app_nil_r. f_equal.
  change (S (length l1)) with (1 + length l1). rewrite Nat.add_comm. clear. induction l1 as [|a l IH]; [reflexivity|]. exact IH.
Qed.

Section Part.
Variables (P : shape) (D : nat) (sz : nat -> nat) (zo : list par) (dimso : list shape) (out : list nat).
Variables (second : bool) (ki : list nat) (dims pp : shape) (m : arr R) (mask : shape).
Hypothesis zo_fit : Forall2 (par_fits P D sz) zo dimso.
Hypothesis ki_fit : keys_fit D sz ki dims.
Hypothesis sized : forall k, k < D -> sz k = 1 \/ attained sz zo dimso k \/
  exists i, i < length ki /\ nth i (rev ki) 0 = k /\ ax dims i = sz k.
Hypothesis out_nodup : NoDup out.
Hypothesis out_lt : forall k, In k out -> k < D.
Hypothesis pp_ok : broadcasts_to pp P.
Hypothesis m_ok : variable_of P (map (twice D sz) (two D second out)) m.
Hypothesis mask_ok : broadcasts_to mask P.
Hypothesis mask_seen : forall j, ax mask j <> 1 -> ax (ash m) (length (two D second out) + j) <> 1.

Let N := nkeys D second.
Let dims' := if second then dims ++ dims else dims.

Lemma m_fit : op_fits P N (twice D sz) (m, two D second out) /\ plates_of (m, two D second out) <= length P.
Proof.
  eapply keys_fit_fit; [exact m_ok|]. destruct (out_two D out out_nodup out_lt second) as [O1 O2].
  repeat split; [apply map_length|assumption|assumption|]. intros i Hi. right. unfold ax. rewrite <- map_rev.
  rewrite (nth_indep _ 1 (twice D sz 0)) by (rewrite map_length, rev_length; lia). now rewrite map_nth.
Qed.

Lemma part_value : forall g index us in_i,
  nth_error (sm_in g) index = Some in_i -> in_i = ki -> sm_nkeys g = D -> sm_out g = out ->
  others index (zip3 (sm_in g) us (sm_const g)) = zo ->
  exists msg, sm_message_part g second index us m mask dims pp P = Ok msg /\ variable_of pp dims' msg /\
  forall u y all, variable_of pp dims' u ->
    Permutation all (flat_map (mops D second) zo ++ [(u, two D second ki)]) ->
    (forall p L, plate_in P p -> (forall k, In k (two D second out) -> L k < twice D sz k) ->
      entry (two D second out) y p L =
      itersum (map (fun k => (k, twice D sz k)) (filter (fun k => negb (memb k (two D second out))) (seq 0 N)))
              (prod_entries all p) L) ->
    total (P ++ map (twice D sz) (two D second out)) (fun e => bget m e * bget y e)%R =
    total (pp ++ dims') (fun e => bget msg e * bget u e)%R.
Proof.
  intros g index us in_i Hin Ei HD HO Hoth.
  destruct (other_ops_all P D sz second zo dimso zo_fit) as (os & ops & Eos & Ec & Hperm & Hpl1 & Hpl2).
  destruct m_fit as [Mf Mp]. destruct (out_two D out out_nodup out_lt second) as [O1 O2].
  set (ops' := ops ++ [(m, two D second out)]).
  assert (Ofit : forall q, In q ops' -> op_fits P N (twice D sz) q /\ plates_of q <= length P).
  { intros q Hq. apply in_app_or in Hq as [Hq|[<-|[]]]; [|split; assumption].
    apply (Permutation_in _ Hperm) in Hq. apply in_flat_map in Hq as [z [Hz Hq]].
    destruct (in_fit P D sz _ _ zo_fit z Hz) as [d Hd]. eapply mops_fit; [exact (in_combine_fit P D sz _ _ zo_fit _ _ Hd)|exact Hq]. }
  pose proof (keys_fit_nkeys D sz second ki dims ki_fit) as (K1 & K2 & K3 & K4). fold N in K3. fold dims' in K1, K4.
  assert (Hb : N <= S N) by lia.
  destruct (message_value P N (twice D sz) (S N) ops' (two D second ki) dims' pp Hb (fun q Hq => proj1 (Ofit q Hq)) K2 K3 K1)
    as (outs & rm & Ekk & Erev & y & Ey & Hz).
  (* plates of the result *)
  set (cpl := firstn (ndim m - (if second then 2 else 1) * length out) (ash m)).
  assert (Ltwo : length (two D second out) = (if second then 2 else 1) * length out).
  { destruct second; cbn [two]; rewrite ?app_length, ?map_length; lia. }
  assert (Hcp : has_plates cpl (m, two D second out)).
  { apply firstn_plates; [rewrite Ltwo; reflexivity|]. destruct Mf as [Mf _]. exact Mf. }
  set (allp := mask :: map snd os ++ [cpl]).
  assert (Hap : forall s, In s allp -> broadcasts_to s P).
  { assert (G : forall pl q, op_fits P N (twice D sz) q -> plates_of q <= length P -> has_plates pl q -> broadcasts_to pl P).
    { intros pl q (_ & _ & _ & F) Hle [HL HA]. split; [lia|]. intros j. rewrite HA. apply F. }
    intros s [<-|Hs]; [assumption|]. apply in_app_or in Hs as [Hs|[<-|[]]].
    - destruct (Hpl1 s Hs) as [q [Hq Hh]]. destruct (Ofit q) as [F1 F2]; [apply in_or_app; now left|]. now apply (G s q).
    - now apply (G cpl (m, two D second out)). }
  destruct (fold_plates P allp [] (conj (Nat.le_0_l _) (fun k => or_introl (ax_nil k))) Hap) as (rp & Erp & Brp & Hrp).
  assert (Hru : forall j, ax rp j = 1 <-> msize (S N) ops' (S N + j) = 1).
  { intros j. rewrite (plate_label_unit P N (twice D sz) (S N) ops' j Hb (fun q Hq => proj1 (Ofit q Hq))). rewrite Hrp. split.
    - intros [_ H] q Hq. apply in_app_or in Hq as [Hq|[<-|[]]].
      + destruct (Hpl2 q Hq) as [pl [Hp [_ HA]]]. rewrite <- HA. apply H. right. apply in_or_app. now left.
      + destruct Hcp as [_ HA]. rewrite <- HA. apply H. right. apply in_or_app. right. now left.
    - intros H. split; [apply ax_nil|]. intros s [<-|Hs].
      + destruct (Nat.eq_dec (ax mask j) 1) as [E|E]; [assumption|exfalso]. apply (mask_seen j E).
        apply (H (m, two D second out)). apply in_or_app. right. now left.
      + apply in_app_or in Hs as [Hs|[<-|[]]].
        * destruct (Hpl1 s Hs) as [q [Hq [_ HA]]]. rewrite HA. apply H. apply in_or_app. now left.
        * destruct Hcp as [_ HA]. rewrite HA. apply H. apply in_or_app. right. now left. }
  set (rnp := list_max (map (@length nat) allp)).
  assert (Hrnp : forall j q, In q ops' -> j < plates_of q -> j < rnp).
  { intros j q Hq Hj. apply in_app_or in Hq as [Hq|[<-|[]]].
    - destruct (Hpl2 q Hq) as [pl [Hp [HL _]]]. eapply Nat.lt_le_trans; [exact Hj|]. rewrite <- HL. apply list_max_ge.
      apply in_map. right. apply in_or_app. now left.
    - destruct Hcp as [HL _]. eapply Nat.lt_le_trans; [exact Hj|]. rewrite <- HL. apply list_max_ge.
      apply in_map. right. apply in_or_app. right. now left. }
  set (d := length pp - rnp).
  destruct (Hz d) as (z & Ez & Lz & Az & Vz).
  { unfold d. lia. }
  { intros j Hj1 Hj2. rewrite nth_lab by lia. destruct (Nat.ltb_spec (length (two D second ki) + j) (length (two D second ki))); [lia|].
    replace (length (two D second ki) + j - length (two D second ki)) with j by lia.
    rewrite used_iff. apply andb_false_iff. right. destruct (memb (S N + j) (op_labels (lab_ops (S N) ops'))) eqn:E; [exfalso|reflexivity].
    apply memb_In, in_lab_labels in E as [[q [Hq Hl]]|(j' & q & Ej & Hq & Hj')].
    - destruct (Ofit q Hq) as [(_ & B & _) _]. specialize (B _ Hl). lia.
    - assert (j' = j) by lia. subst j'. specialize (Hrnp j q Hq Hj'). unfold d in Hj1. lia. }
  assert (Bz : broadcasts_to (ash z) (pp ++ dims')).
  { split; [rewrite Lz; lia|]. intros k. rewrite Az. destruct (Nat.ltb_spec k (length (pp ++ dims'))) as [Hk|Hk]; cbn [andb]; [|now left].
    destruct (Nat.eqb_spec (ax (pp ++ dims') k) 1) as [E|E]; cbn [negb andb]; [now left|].
    destruct (existsb _ _); [|now left].
    destruct (msize_or P N (twice D sz) (S N) ops' (two D second ki) dims' Hb (fun q Hq => proj1 (Ofit q Hq)) K1 (nth k (rev (down_keys (S N) (length pp) ++ two D second ki)) 0)) as [E1|E1]; [now left|right].
    rewrite E1. apply (lab_size P N (twice D sz) (S N) (two D second ki) dims' pp Hb K3 K1 K4 pp_ok k Hk E). }
  assert (Bd : broadcasts_to dims' (pp ++ dims')).
  { split; [rewrite app_length; lia|]. intros k. rewrite ax_app. destruct (Nat.ltb_spec k (length dims')); [now right|left]. now apply ax_overflow. }
  destruct (map2_upper _ _ _ Rmult z (Arr dims' (fun _ => 1%R)) (pp ++ dims') Bz Bd) as (z2 & Ez2 & NB & Bz2 & Vz2).
  assert (V2 : variable_of pp dims' z2).
  { split; [|split; [|assumption]].
    - destruct NB as (NB & _). apply (NB dims'). cbn. auto.
    - intros i Hi. destruct (Nat.eq_dec (ax dims' i) 1) as [E|E].
      + rewrite E. rewrite (nb_ax_1 _ _ _ NB). intros a [<-|[<-|[]]]; [|assumption].
        destruct Bz as [_ Bz]. destruct (Bz i) as [F|F]; [assumption|]. rewrite F, ax_app.
        destruct (Nat.ltb_spec i (length dims')); [assumption|lia].
      + destruct NB as (_ & _ & NB). destruct (NB i) as [NB1 _]. destruct (NB1 dims' ltac:(cbn; auto)); [contradiction|]. symmetry. assumption. }
  set (r := bm_value P [rp; pp]).
  exists (if negb (r =? 1) then np_scale r z2 else z2). split; [|split].
  - unfold sm_message_part. rewrite HD, HO, Hin, Ei, Hoth. cbn [bind]. rewrite Eos. cbn [bind].
    change (if second then 2 * D else D) with N.
    assert (Eops : concat (map fst os) ++ [(m, down_keys (S N) (ndim m - (if second then 2 else 1) * length out) ++
       (if second then map (fun k => k + D) out ++ out else out))] = lab_ops (S N) ops').
    { unfold ops', lab_ops at 1. rewrite map_app. fold (lab_ops (S N) ops). fold N in Ec. rewrite Ec. f_equal. cbn [map]. unfold lab_op. cbn [fst snd].
      rewrite Ltwo. do 3 f_equal. unfold two. destruct second; [now rewrite map_add_comm|reflexivity]. }
    rewrite Eops. fold cpl. fold allp. rewrite Erp. cbn [bind]. fold rnp.
    change (if second then dims ++ dims else dims) with dims'.
    assert (Eks : (if second then map (fun k => k + D) ki ++ ki else ki) = two D second ki).
    { unfold two. destruct second; [now rewrite map_add_comm|reflexivity]. }
    rewrite Eks, Ekk. cbn [bind]. rewrite Ey. cbn [bind].
    replace (if rnp <? length pp then skipn (length pp - rnp) (fold_left list_insert rm (ash y)) else fold_left list_insert rm (ash y))
      with (skipn d (fold_left list_insert rm (ash y))).
    2:{ unfold d. destruct (Nat.ltb_spec rnp (length pp)); [reflexivity|]. now replace (length pp - rnp) with 0 by lia. }
    rewrite Ez. cbn [bind]. unfold np_multiply. rewrite Ez2. cbn [bind].
    assert (Er : broadcasting_multiplier P [rp; pp] = Ok r).
    { apply broadcasting_multiplier_ok. split; [|reflexivity]. intros a [<-|[<-|[]]]; assumption. }
    rewrite Er. reflexivity.
  - destruct (negb (r =? 1)); exact V2.
  - intros u yy all Vu Hall Hyv.
    destruct Vu as (Vu1 & Vu2 & Vu3).
    pose proof (node_total P N (twice D sz) (S N) Hb (two D second out) m all yy O1 O2) as NT.
    assert (Ufit : op_fits P N (twice D sz) (u, two D second ki) /\ plates_of (u, two D second ki) <= length P).
    { eapply (keys_fit_fit P N (twice D sz) u (two D second ki) dims').
      - split; [assumption|]. split; [assumption|]. split.
        + destruct Vu3 as [Vu3 _]. rewrite app_length in *. destruct pp_ok. lia.
        + intros k. destruct Vu3 as [_ Vu3]. destruct (Vu3 k) as [E|E]; [now left|]. rewrite E, !ax_app.
          destruct (Nat.ltb_spec k (length dims')); [now right|]. destruct pp_ok as [_ Q]. apply Q.
      - repeat split; assumption. }
    assert (Afit : forall q, In q all -> op_fits P N (twice D sz) q /\ plates_of q <= length P).
    { intros q Hq. apply (Permutation_in _ Hall) in Hq. apply in_app_or in Hq as [Hq|[<-|[]]]; [|split; apply Ufit].
      apply Ofit. apply in_or_app. left. now apply (Permutation_in _ (Permutation_sym Hperm)). }
    etransitivity; [apply NT|].
    + intros q Hq. now apply Afit.
    + intros q Hq. now apply Afit.
    + exact Mp.
    + exact Hyv.
    + pose proof (message_total P N (twice D sz) (S N) ops' (two D second ki) dims' pp Hb (fun q Hq => proj1 (Ofit q Hq)) K2 K3 K1 K4 pp_ok
        (fun q Hq => proj2 (Ofit q Hq)) outs z u rp Erev Bz Vu3 Vz) as MT.
      etransitivity; [|etransitivity; [apply MT|]].
      * apply itersum_ext_all. intros Lab. unfold T.
        rewrite einsum_term_lab by (intros q Hq; apply (Ofit q Hq)).
        unfold ops'. rewrite prod_entries_app, (prod_entries_perm all _ _ _ Hall), prod_entries_app, (prod_entries_perm ops _ _ _ Hperm).
        unfold prod_entries at 2 4. cbn [map fst snd]. unfold lprod. cbn [fold_right].
        replace (bget u (op_env (down_keys (S N) (length pp) ++ two D second ki) Lab)) with (entry (two D second ki) u (fun j => Lab (S N + j)) Lab).
        -- ring.
        -- symmetry. unfold entry. apply bget_ext. intros k Hk _. unfold op_env, join.
           destruct Vu3 as [Vu3 _]. rewrite app_length in Vu3. rewrite nth_lab by lia.
           destruct (Nat.ltb_spec k (length (two D second ki))); [now rewrite at_index_map|reflexivity].
      * intros k Hk Hunit. unfold msize.
        assert (S1 : twice D sz k = 1 \/ realized (twice D sz) ops' k).
        { assert (A : forall k' (b : bool), k' < D -> (b = true -> second = true) -> (if b then D + k' else k') = k -> twice D sz k = 1 \/ realized (twice D sz) ops' k).
          { intros k' b Hk' Hb' <-.
            assert (Et : twice D sz (if b then D + k' else k') = sz k') by (destruct b; [apply twice_add|now apply twice_lt]).
            destruct (sized k' Hk') as [E|[(zz & dd & i & Hd & Hi & E & Es)|(i & Hi & E & Es)]].
            - left. congruence.
            - right. right. rewrite Et.
              pose proof (in_combine_l _ _ _ _ Hd) as Hzz. destruct zz as [[keys uu] cc]. cbn [fst snd] in *.
              destruct (mops_axis P D sz second keys uu cc dd i (in_combine_fit P D sz _ _ zo_fit _ _ Hd) Hi) as [A1 A2].
              assert (Hsub : forall q, In q (mops D second (keys, uu, cc)) -> In q ops').
              { intros q Hq. apply in_or_app. left. apply (Permutation_in _ (Permutation_sym Hperm)). apply in_flat_map. eauto. }
              destruct b.
              + destruct (A2 (Hb' eq_refl)) as (q & i' & Hq & Hi' & E' & Ea). exists q, i'. subst k'. rewrite Ea. repeat split; auto.
              + destruct A1 as (q & i' & Hq & Hi' & E' & Ea). exists q, i'. subst k'. rewrite Ea. repeat split; auto.
            - left. rewrite Et, <- Es. destruct ki_fit as (L0 & _). unfold dims', two in Hunit. destruct second.
              + destruct b.
                * specialize (Hunit (length ki + i)). rewrite nth_rev_two2 in Hunit by assumption. rewrite ax_app in Hunit.
                  destruct (Nat.ltb_spec (length ki + i) (length dims)); [lia|]. replace (length ki + i - length dims) with i in Hunit by lia.
                  apply Hunit; [rewrite app_length, map_length; lia|congruence].
                * specialize (Hunit i). rewrite nth_rev_two in Hunit by assumption. rewrite ax_app in Hunit.
                  destruct (Nat.ltb_spec i (length dims)); [|lia].
                  apply Hunit; [rewrite app_length, map_length; lia|congruence].
              + destruct b; [specialize (Hb' eq_refl); discriminate|]. now apply Hunit. }
          destruct (Nat.lt_ge_cases k D) as [H|H]; [apply (A k false); [assumption|discriminate|reflexivity]|].
          unfold N, nkeys in Hk. destruct second; [|lia]. apply (A (k - D) true); [lia|reflexivity|lia]. }
        destruct S1 as [S1|S1].
        { rewrite S1. destruct (msize_or P N (twice D sz) (S N) ops' (two D second ki) dims' Hb (fun q Hq => proj1 (Ofit q Hq)) K1 k) as [E|E]; [exact E|].
          unfold fsize in E. destruct (Nat.ltb_spec k N); [|lia]. rewrite S1 in E. exact E. }
        destruct (memb k (op_labels (lab_ops (S N) ops'))) eqn:Em.
        { apply (key_size P N (twice D sz) (S N) ops' Hb (fun q Hq => proj1 (Ofit q Hq)) k Hk S1). }
        { destruct S1 as [S1|(q & i & Hq & Hi & E & _)]; [symmetry; exact S1|exfalso].
          apply memb_false in Em. apply Em. apply in_lab_labels. left. exists q. split; [assumption|]. rewrite <- E. now apply nth_rev_In. }
      * intros j _. apply Hru.
      * fold r. rewrite <- total_scal. apply total_ext. intros e _.
        assert (E2 : bget z2 e = bget z e) by (rewrite Vz2; unfold bget at 2; cbn; ring).
        destruct (Nat.eqb_spec r 1) as [E|E]; cbn [negb].
        -- rewrite E, E2. change (INR 1) with 1%R. ring.
        -- unfold np_scale. rewrite bget_map, E2. ring.
Qed.
End Part.
