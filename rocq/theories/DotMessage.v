(** The message of SumMultiply to a parent, in terms of labels. *)
From Coq Require Import List Arith ZArith Lia Bool Reals Lra Permutation FunctionalExtensionality.
From Verif Require Import Base Shapes SpecShapes ShapesLemmas NumPy MiscArray SpecArray TensorLemmas
  EinsumLemmas EinsumGen PlateSumLemmas PlateSum2Lemmas MessageLemmas NetworkLemmas PGate Dot DotEinsum DotSum.
Import ListNotations.
Open Scope nat_scope.

Lemma kept_keys_ok : forall keys shp used j, length keys = length shp ->
  exists ks rm, kept_keys j keys shp used = Ok (ks, rm) /\
    rev ks = map (fun k => nth k (rev keys) 0)
                 (filter (fun k => negb (ax shp k =? 1) && existsb (memb (nth k (rev keys) 0)) used) (seq 0 (length keys))) /\
    forall (f : nat -> nat) pre, length pre = j ->
      fold_left list_insert rm (pre ++ map f ks) =
      pre ++ map (fun q => if (snd q =? 1) || negb (existsb (memb (fst q)) used) then 1 else f (fst q)) (combine keys shp).
Proof.
  induction keys as [|k r IH]; intros [|d shp] used j HL; try discriminate.
  - exists [], []. split; [reflexivity|]. split; reflexivity.
  - cbn [kept_keys]. injection HL as HL. destruct (IH shp used (S j) HL) as (ks & rm & E & H1 & H2).
    rewrite E. cbn [bind].
    assert (Hrev : rev (if (d =? 1) || negb (existsb (memb k) used) then ks else k :: ks) =
      map (fun k0 => nth k0 (rev (k :: r)) 0)
        (filter (fun k0 => negb (ax (d :: shp) k0 =? 1) && existsb (memb (nth k0 (rev (k :: r)) 0)) used) (seq 0 (length (k :: r))))).
    { cbn [length]. rewrite seq_S, filter_app, map_app. cbn [Nat.add].
      replace (map _ (filter _ (seq 0 (length r)))) with (rev ks).
      - cbn [rev filter]. rewrite ax_cons, <- HL, Nat.eqb_refl.
        rewrite app_nth2; rewrite rev_length; [|lia]. rewrite Nat.sub_diag. cbn [nth].
        destruct (d =? 1); cbn [negb andb orb]; [now rewrite app_nil_r|].
        destruct (existsb (memb k) used); cbn [negb map rev]; [|now rewrite app_nil_r].
        rewrite app_nth2; rewrite rev_length; [|lia]. rewrite Nat.sub_diag. reflexivity.
      - rewrite H1. cbn [rev].
        assert (G : forall l, (forall x, In x l -> x < length r) ->
          map (fun k0 => nth k0 (rev r) 0) (filter (fun k0 => negb (ax shp k0 =? 1) && existsb (memb (nth k0 (rev r) 0)) used) l) =
          map (fun k0 => nth k0 (rev r ++ [k]) 0) (filter (fun k0 => negb (ax (d :: shp) k0 =? 1) && existsb (memb (nth k0 (rev r ++ [k]) 0)) used) l)).
        { induction l as [|x l IHl]; intros Hx; [reflexivity|]. cbn [filter].
          assert (x < length r) by (apply Hx; now left).
          assert (Ex : nth x (rev r ++ [k]) 0 = nth x (rev r) 0) by (apply app_nth1; now rewrite rev_length).
          rewrite Ex, ax_cons. destruct (Nat.eqb_spec x (length shp)); [lia|].
          destruct (_ && _); cbn [map]; rewrite ?Ex, IHl; try reflexivity; intros; apply Hx; now right. }
        apply G. intros x Hx. apply in_seq in Hx. lia. }
    destruct ((d =? 1) || negb (existsb (memb k) used)) eqn:Ed.
    + exists ks, (j :: rm). split; [reflexivity|]. split; [exact Hrev|].
      intros f pre Hp. cbn [fold_left combine map fst snd]. rewrite Ed.
      unfold list_insert at 2. rewrite firstn_app, skipn_app, Hp, Nat.sub_diag, firstn_all2, skipn_all2 by lia.
      cbn [firstn skipn app]. rewrite app_nil_r.
      change (pre ++ 1 :: map f ks) with (pre ++ [1] ++ map f ks). rewrite app_assoc.
      rewrite H2 by (rewrite app_length; cbn; lia). rewrite <- app_assoc. reflexivity.
    + exists (k :: ks), rm. split; [reflexivity|]. split; [exact Hrev|].
      intros f pre Hp. cbn [combine map fst snd]. rewrite Ed.
      change (pre ++ f k :: map f ks) with (pre ++ [f k] ++ map f ks). rewrite app_assoc.
      rewrite H2 by (rewrite app_length; cbn; lia). rewrite <- app_assoc. reflexivity.
Qed.

Lemma ax_map_combine : forall (f : nat * nat -> nat) keys shp k, length keys = length shp -> k < length keys ->
  ax (map f (combine keys shp)) k = f (nth k (rev keys) 0, ax shp k).
Proof.
  intros f keys shp k HL Hk. unfold ax. rewrite <- map_rev.
  rewrite (nth_indep _ 1 (f (0, 1))) by (rewrite map_length, rev_length, combine_length; lia).
  rewrite map_nth. f_equal. rewrite rev_nth by (rewrite combine_length; lia). rewrite combine_length, <- HL, Nat.min_id.
  rewrite combine_nth by assumption. rewrite !rev_nth by lia. now rewrite <- HL.
Qed.

Section Msg.
Variables (P : shape) (N : nat) (sz : nat -> nat) (base : nat) (ops : list (arr R * list nat)).
Variables (ks : list nat) (dims pp : shape).
Hypothesis base_ok : N <= base.
Hypothesis ops_fit : forall q, In q ops -> op_fits P N sz q.
Hypothesis ks_nodup : NoDup ks.
Hypothesis ks_lt : forall k, In k ks -> k < N.
Hypothesis dims_len : length dims = length ks.
Hypothesis dims_ok : forall i, i < length ks -> ax dims i = 1 \/ ax dims i = sz (nth i (rev ks) 0).
Hypothesis pp_ok : broadcasts_to pp P.
Hypothesis ops_plates : forall q, In q ops -> plates_of q <= length P.

Let LO := lab_ops base ops.
Let lu := down_keys base (length pp) ++ ks.
Let ps := pp ++ dims.
Let lab k := nth k (rev lu) 0.
Let keep k := negb (ax ps k =? 1) && existsb (memb (lab k)) (map snd LO).
(** Length of a label among the operands; one if no operand has it. *)
Definition msize (l : nat) : nat := if memb l (op_labels LO) then label_size_of LO l else 1.
Definition fsize (l : nat) : nat := if l <? N then sz l else ax P (l - base).
Definition T (Lab : env) : R := einsum_term LO Lab.

Lemma lu_len : length lu = length ps.
Proof. unfold lu, ps. rewrite !app_length, down_keys_length. lia. Qed.
Lemma lu_nodup : NoDup lu.
Proof.
  unfold lu. apply NoDup_app_intro; [apply NoDup_down_keys|assumption|]. intros x H1 H2.
  apply in_down_keys in H1. specialize (ks_lt x H2). lia.
Qed.
Lemma lab_eq : forall k, k < length ps -> lab k = if k <? length ks then nth k (rev ks) 0 else base + (k - length ks).
Proof. intros k Hk. unfold lab, lu. apply nth_lab. unfold ps in Hk. rewrite app_length in Hk. lia. Qed.
Lemma lab_inj : forall a b, a < length ps -> b < length ps -> lab a = lab b -> a = b.
Proof.
  intros a b Ha Hb E. unfold lab in E. rewrite <- lu_len in Ha, Hb. rewrite <- rev_length in Ha, Hb.
  apply (proj1 (NoDup_nth (rev lu) 0) (NoDup_rev lu_nodup) a b Ha Hb E).
Qed.
Lemma ax_ps : forall k, ax ps k = if k <? length ks then ax dims k else ax pp (k - length ks).
Proof. intros k. unfold ps. rewrite ax_app, dims_len. reflexivity. Qed.
Lemma used_iff : forall l, existsb (memb l) (map snd LO) = memb l (op_labels LO).
Proof.
  intros l. apply eq_true_iff_eq. rewrite memb_In, in_op_labels, existsb_exists. split.
  - intros [x [Hx Hl]]. apply in_map_iff in Hx as [q [<- Hq]]. apply memb_In in Hl. eauto.
  - intros [q [Hq Hl]]. exists (snd q). split; [now apply in_map|now apply memb_In].
Qed.
(** Full size of a label of the parent with a non-unit axis. *)
Lemma lab_size : forall k, k < length ps -> ax ps k <> 1 -> fsize (lab k) = ax ps k.
Proof.
  intros k Hk E. rewrite lab_eq by assumption. rewrite ax_ps in *. unfold fsize.
  destruct (Nat.ltb_spec k (length ks)) as [H|H].
  - assert (nth k (rev ks) 0 < N) by (apply ks_lt; now apply nth_rev_In).
    destruct (Nat.ltb_spec (nth k (rev ks) 0) N); [|lia]. destruct (dims_ok k H); congruence.
  - destruct (Nat.ltb_spec (base + (k - length ks)) N); [lia|].
    replace (base + (k - length ks) - base) with (k - length ks) by lia.
    destruct pp_ok as [_ K]. destruct (K (k - length ks)); congruence.
Qed.
Lemma msize_or : forall l, msize l = 1 \/ msize l = fsize l.
Proof.
  intros l. unfold msize. destruct (memb l (op_labels LO)) eqn:E; [|now left]. apply memb_In in E.
  destruct (label_le P N sz base ops base_ok ops_fit l E) as [H1 H2]. unfold fsize.
  destruct (Nat.ltb_spec l N) as [H|H]; [now apply H1|].
  apply in_lab_labels in E as [[q [Hq Hl]]|[j [q [-> [Hq Hj]]]]].
  - destruct (ops_fit q Hq) as (_ & Hb & _). specialize (Hb l Hl). lia.
  - replace (base + j - base) with j by lia. now apply H2.
Qed.

Lemma T_reads : reads (filter (fun l => negb (msize l =? 1)) (op_labels LO)) T.
Proof.
  intros L L' H. unfold T, LO. rewrite !einsum_term_lab by (intros q Hq; apply (ops_fit q Hq)).
  apply prod_entries_ext. intros q Hq. apply entry_ext'.
  - intros j Hj. apply H. apply filter_In.
    assert (Hin : In (base + j) (op_labels LO)).
    { unfold LO. apply in_lab_labels. right. exists j, q. split; [reflexivity|]. split; [assumption|].
      destruct (Nat.lt_ge_cases j (plates_of q)); [assumption|exfalso; apply Hj]. apply ax_overflow.
      unfold plates_of, ndim in *. destruct (ops_fit q Hq) as [Hl _]. unfold ndim in Hl. lia. }
    split; [assumption|]. unfold msize. pose proof Hin as Hin'. apply memb_In in Hin. rewrite Hin.
    apply negb_true_iff, Nat.eqb_neq. intros E. apply Hj.
    apply (unit_label_plate P N sz base ops base_ok ops_fit j); [intros _; exact E|assumption].
  - intros i Hi Hj. apply H. apply filter_In.
    assert (Hin : In (nth i (rev (snd q)) 0) (op_labels LO)).
    { unfold LO. apply in_lab_labels. left. exists q. split; [assumption|]. now apply nth_rev_In. }
    split; [assumption|]. unfold msize. pose proof Hin as Hin'. apply memb_In in Hin. rewrite Hin.
    apply negb_true_iff, Nat.eqb_neq. intros E. apply Hj.
    destruct (ops_fit q Hq) as (_ & Hb & _).
    apply (unit_label_key P N sz base ops base_ok ops_fit (nth i (rev (snd q)) 0)) with (i := i); auto.
    apply Hb. now apply nth_rev_In.
Qed.
Lemma T_indep : forall l, msize l = 1 -> indep l T.
Proof.
  intros l Hl L x. apply T_reads. intros k Hk. apply filter_In in Hk as [_ Hk]. unfold upd.
  destruct (Nat.eqb_spec k l) as [->|]; [|reflexivity]. rewrite Hl in Hk. discriminate.
Qed.

(** The sums einsum carries out. *)
Definition free_sum (outs : list nat) : env -> R :=
  itersum (map (fun l => (l, msize l)) (filter (fun l => negb (memb l outs)) (op_labels LO))) T.

Lemma message_value : exists outs rm, kept_keys 0 lu ps (map snd LO) = Ok (outs, rm) /\
  rev outs = map lab (filter keep (seq 0 (length ps))) /\
  exists y, einsum LO outs = Ok y /\
  forall d, d <= length pp -> (forall j, length pp - d <= j -> j < length pp -> keep (length ks + j) = false) ->
  exists z, np_reshape y (skipn d (fold_left list_insert rm (ash y))) = Ok z /\
    length (ash z) = length ps - d /\
    (forall k, ax (ash z) k = if (k <? length ps) && keep k then msize (lab k) else 1) /\
    forall Lab, (forall l, In l outs -> msize l <> 1 -> Lab l < msize l) ->
      bget z (op_env lu Lab) = free_sum outs Lab.
Proof.
  destruct (kept_keys_ok lu ps (map snd LO) 0 lu_len) as (outs & rm & E & H1 & H2).
  exists outs, rm. split; [exact E|].
  assert (Hrev : rev outs = map lab (filter keep (seq 0 (length ps)))) by (rewrite H1, lu_len; reflexivity).
  split; [exact Hrev|].
  assert (Hin : forall l, In l outs <-> exists k, k < length ps /\ keep k = true /\ lab k = l).
  { intros l. rewrite in_rev, Hrev, in_map_iff. split.
    - intros [k [El Hk]]. apply filter_In in Hk as [Hk Hk']. apply in_seq in Hk. exists k. repeat split; [lia|assumption|assumption].
    - intros [k [Hk [Hk' El]]]. exists k. split; [assumption|]. apply filter_In. rewrite in_seq. split; [lia|assumption]. }
  assert (Hincl : incl outs (op_labels LO)).
  { intros l Hl. apply Hin in Hl as [k [Hk [Hk' <-]]]. unfold keep in Hk'. apply andb_true_iff in Hk' as [_ Hk'].
    rewrite used_iff in Hk'. now apply memb_In. }
  assert (HND : NoDup outs).
  { rewrite <- (rev_involutive outs). apply NoDup_rev. rewrite Hrev.
    assert (G : forall l, NoDup l -> (forall x, In x l -> x < length ps) -> NoDup (map lab l)).
    { induction l as [|x l IH]; intros Hn Hx; [constructor|]. inversion Hn; subst. cbn [map]. constructor.
      - intros Hc. apply in_map_iff in Hc as [y [Ey Hy]]. apply lab_inj in Ey; [subst; contradiction|apply Hx; now right|apply Hx; now left].
      - apply IH; [assumption|]. intros; apply Hx; now right. }
    apply G; [apply NoDup_filter, seq_NoDup|]. intros x Hx. apply filter_In in Hx as [Hx _]. apply in_seq in Hx. lia. }
  destruct (einsum_total LO outs) as [y Hy].
  { intros q Hq. eapply lab_ops_length; [|exact Hq]. intros q' Hq'. apply (ops_fit q' Hq'). }
  { assumption. } { assumption. }
  { intros l Hl. eexists. now apply (label_ok P N sz base ops). }
  exists y. split; [exact Hy|]. apply einsum_ok in Hy as (_ & _ & _ & _ & Hsh & Hv).
  assert (Hms : forall l, In l outs -> msize l = label_size_of LO l).
  { intros l Hl. unfold msize. apply Hincl in Hl. apply memb_In in Hl. now rewrite Hl. }
  intros d Hd Hlead. set (fs := fold_left list_insert rm (ash y)).
  assert (Hfs : fs = map (fun q => if (snd q =? 1) || negb (existsb (memb (fst q)) (map snd LO)) then 1 else label_size_of LO (fst q)) (combine lu ps)).
  { unfold fs. rewrite Hsh. apply (H2 (label_size_of LO) []). reflexivity. }
  assert (Hfl : length fs = length ps).
  { rewrite Hfs, map_length, combine_length, lu_len. lia. }
  assert (Hfax : forall k, ax fs k = if (k <? length ps) && keep k then msize (lab k) else 1).
  { intros k. destruct (Nat.ltb_spec k (length ps)) as [Hk|Hk]; cbn [andb].
    - rewrite Hfs, ax_map_combine; [|apply lu_len|rewrite lu_len; assumption]. cbn [fst snd]. fold (lab k).
      unfold keep.
      unfold msize. rewrite <- used_iff. destruct (ax ps k =? 1); cbn [negb andb orb]; [reflexivity|].
      destruct (existsb (memb (lab k)) (map snd LO)); reflexivity.
    - apply ax_overflow. lia. }
  assert (Hsk : forall k, ax (skipn d fs) k = ax fs k).
  { intros k. rewrite ax_skipn. destruct (Nat.ltb_spec k (length fs - d)); [reflexivity|].
    rewrite Hfax. destruct (Nat.ltb_spec k (length ps)) as [Hk|Hk]; [|reflexivity]. cbn [andb].
    unfold ps in Hk, Hfl. rewrite app_length in Hk, Hfl.
    replace k with (length ks + (k - length ks)) by lia. rewrite Hlead; [reflexivity|lia|lia]. }
  assert (Hkl : forall k, k < length ps -> keep k = true -> k < length ps - d).
  { intros k Hk Hk'. destruct (Nat.lt_ge_cases k (length ps - d)); [assumption|exfalso].
    unfold ps in Hk, H. rewrite app_length in Hk, H.
    replace k with (length ks + (k - length ks)) in Hk' by lia. rewrite Hlead in Hk'; [discriminate|lia|lia]. }
  assert (Hcnt : forall n, n = length ps - d -> cnt keep n = length outs).
  { intros n ->. rewrite <- (rev_length outs), Hrev, map_length. unfold cnt.
    replace (length ps) with ((length ps - d) + d) at 2 by (unfold ps; rewrite app_length; lia).
    rewrite seq_app, filter_app, app_length. cbn [Nat.add].
    assert (Ez : filter keep (seq (length ps - d) d) = []).
    { destruct (filter keep (seq (length ps - d) d)) as [|x l] eqn:Ef; [reflexivity|exfalso].
      assert (Hx : In x (filter keep (seq (length ps - d) d))) by (rewrite Ef; now left).
      apply filter_In in Hx as [Hx Hx']. apply in_seq in Hx. apply Hkl in Hx'; [lia|].
      unfold ps in Hx |- *. rewrite app_length in Hx |- *. lia. }
    rewrite Ez. cbn [length]. lia. }
  assert (Hnth : forall k, k < length ps -> keep k = true -> nth (cnt keep k) (rev outs) 0 = lab k).
  { intros k Hk Hk'. rewrite Hrev.
    rewrite (nth_indep _ 0 (lab 0)).
    - rewrite map_nth. f_equal. apply nth_filter_cnt; assumption.
    - rewrite map_length. apply (cnt_lt keep (length ps) k); assumption. }
  assert (Hsl : length (skipn d fs) = length ps - d) by (rewrite skipn_length; lia).
  assert (Hyl : ndim y = length outs) by (unfold ndim; rewrite Hsh; apply map_length).
  assert (Hyax : forall k, k < length ps -> keep k = true -> ax (ash y) (cnt keep k) = msize (lab k)).
  { intros k Hk Hk'. rewrite Hsh. unfold ax. rewrite <- map_rev.
    assert (Hc : cnt keep k < length (rev outs)).
    { rewrite Hrev, map_length. apply (cnt_lt keep (length ps) k); assumption. }
    rewrite (nth_indep _ 1 (label_size_of LO 0)) by (now rewrite map_length).
    rewrite map_nth, Hnth by assumption. symmetry. apply Hms. apply Hin. exists k. auto. }
  destruct (reshape_units R y (skipn d fs) keep) as (z & Hz & Hzs & Hzv).
  { rewrite Hsl, Hyl. symmetry. now apply Hcnt. }
  { intros k Hk Hk'. rewrite Hsk, Hfax, Hk'. now rewrite andb_false_r. }
  { intros k Hk Hk'. rewrite Hsl in Hk. rewrite Hsk, Hfax, Hk', andb_true_r.
    destruct (Nat.ltb_spec k (length ps)); [|lia]. apply Hyax; [lia|assumption]. }
  exists z. split; [exact Hz|]. split; [now rewrite Hzs|]. split.
  { intros k. rewrite Hzs, Hsk. apply Hfax. }
  intros Lab HLab.
  set (e := clip (ash z) (op_env lu Lab)).
  rewrite <- bget_clip. fold e.
  set (e' := fun i => clip (ash y) (fun i => Lab (nth i (rev outs) 0)) i).
  assert (Hez : forall k, k < length ps -> keep k = true -> e' (cnt keep k) = e k).
  { intros k Hk Hk'. unfold e', e, clip. rewrite Hyax by assumption. rewrite Hzs, Hsk, Hfax, Hk', andb_true_r.
    destruct (Nat.ltb_spec k (length ps)); [|lia]. rewrite Hnth by assumption. reflexivity. }
  rewrite (Hzv e e').
  - unfold bget. rewrite Hv. set (B := assign (rev outs) (clip (ash y) e')).
    unfold free_sum. fold T.
    rewrite (map_ext_in (fun l => (l, label_size_of LO l)) (fun l => (l, msize l))).
    2:{ intros l Hl. apply filter_In in Hl as [Hl _]. unfold msize. apply memb_In in Hl. now rewrite Hl. }
    apply (reads_itersum_free _ _ _ B Lab T_reads). intros k Hk Hn.
    apply filter_In in Hk as [Hk1 Hk2]. apply negb_true_iff, Nat.eqb_neq in Hk2.
    rewrite map_map in Hn. cbn [fst] in Hn. rewrite map_id in Hn.
    assert (Hko : In k outs).
    { destruct (memb k outs) eqn:Ek; [now apply memb_In|]. exfalso. apply Hn. apply filter_In. now rewrite Ek. }
    apply Hin in Hko as [i [Hi [Hi' <-]]]. unfold B. rewrite <- (Hnth i Hi Hi').
    rewrite assign_nth; [|now apply NoDup_rev|].
    2:{ rewrite Hrev, map_length. apply (cnt_lt keep (length ps) i); assumption. }
    unfold clip at 1. rewrite Hyax by assumption. destruct (Nat.eqb_spec (msize (lab i)) 1); [contradiction|].
    unfold e', clip. rewrite Hyax by assumption. destruct (Nat.eqb_spec (msize (lab i)) 1); [contradiction|].
    reflexivity.
  - intros k. unfold e, clip. rewrite Hzs. rewrite Hsk, Hfax.
    destruct (Nat.ltb_spec k (length ps)) as [Hk|Hk]; [|cbn; lia]. cbn [andb].
    destruct (keep k) eqn:Ek; [|cbn; lia].
    destruct (Nat.eqb_spec (msize (lab k)) 1) as [E1|E1]; [lia|].
    unfold op_env. fold (lab k). apply HLab; [|assumption]. apply Hin. exists k. auto.
  - intros k Hk Hk'. rewrite Hsl in Hk. apply Hez; [lia|assumption].
Qed.

Lemma lprod_app : forall a b, lprod (a ++ b) = (lprod a * lprod b)%R.
Proof. intros a b. unfold lprod. induction a as [|x a IH]; cbn; [ring|]. rewrite IH. ring. Qed.

Definition labels : list nat := seq 0 N ++ map (Nat.add base) (seq 0 (length P)).
Lemma labels_nodup : NoDup labels.
Proof.
  unfold labels. apply NoDup_app_intro; [apply seq_NoDup| |].
  - apply FinFun.Injective_map_NoDup; [intros a b; lia|apply seq_NoDup].
  - intros x H1 H2. apply in_seq in H1. apply in_map_iff in H2 as [j [<- _]]. lia.
Qed.

Lemma message_total : forall outs (z u : arr R) rp,
  rev outs = map lab (filter keep (seq 0 (length ps))) ->
  broadcasts_to (ash z) ps -> broadcasts_to (ash u) ps ->
  (forall Lab, (forall l, In l outs -> msize l <> 1 -> Lab l < msize l) -> bget z (op_env lu Lab) = free_sum outs Lab) ->
  (forall k, k < N -> (forall i, i < length ks -> nth i (rev ks) 0 = k -> ax dims i = 1) -> msize k = sz k) ->
  (forall j, ax pp j = 1 -> (ax rp j = 1 <-> msize (base + j) = 1)) ->
  itersum (map (fun l => (l, fsize l)) labels) (fun Lab => T Lab * bget u (op_env lu Lab))%R env0 =
  (INR (bm_value P [rp; pp]) * total ps (fun e => bget z e * bget u e))%R.
Proof.
  intros outs z u rp Hrev Hz Hu Hval Hkeys Hrp.
  set (outer := fun l => existsb (fun k => (lab k =? l) && negb (ax ps k =? 1)) (seq 0 (length ps))).
  assert (Hout : forall l, outer l = true <-> exists k, k < length ps /\ lab k = l /\ ax ps k <> 1).
  { intros l. unfold outer. rewrite existsb_exists. split.
    - intros [k [Hk E]]. apply in_seq in Hk. apply andb_true_iff in E as [E1 E2]. apply Nat.eqb_eq in E1.
      apply negb_true_iff, Nat.eqb_neq in E2. exists k. repeat split; [lia|assumption|assumption].
    - intros [k [Hk [E1 E2]]]. exists k. split; [apply in_seq; lia|]. apply andb_true_iff. split; [now apply Nat.eqb_eq|].
      now apply negb_true_iff, Nat.eqb_neq. }
  assert (Hin : forall l, In l outs <-> exists k, k < length ps /\ keep k = true /\ lab k = l).
  { intros l. rewrite in_rev, Hrev, in_map_iff. split.
    - intros [k [El Hk]]. apply filter_In in Hk as [Hk Hk']. apply in_seq in Hk. exists k. repeat split; [lia|assumption|assumption].
    - intros [k [Hk [Hk' El]]]. exists k. split; [assumption|]. apply filter_In. rewrite in_seq. split; [lia|assumption]. }
  assert (Houts : forall l, In l outs <-> outer l = true /\ In l (op_labels LO)).
  { intros l. rewrite Hin, Hout. unfold keep. split.
    - intros [k [Hk [E <-]]]. apply andb_true_iff in E as [E1 E2]. rewrite used_iff in E2.
      apply negb_true_iff, Nat.eqb_neq in E1. split; [exists k; auto|now apply memb_In].
    - intros [[k [Hk [<- E]]] Hl]. exists k. split; [assumption|]. split; [|reflexivity].
      apply andb_true_iff. split; [now apply negb_true_iff, Nat.eqb_neq|]. rewrite used_iff. now apply memb_In. }
  set (U := fun Lab => bget u (op_env lu Lab)).
  assert (HU : forall l, outer l = false -> indep l U).
  { intros l Hl Lab x. unfold U. apply bget_ext. intros k Hk Ek. unfold op_env, upd.
    destruct Hu as [Hu1 Hu2]. destruct (Nat.eqb_spec (nth k (rev lu) 0) l) as [E|]; [|reflexivity]. exfalso.
    assert (outer l = true); [|congruence]. apply Hout. exists k. split; [lia|]. split; [exact E|].
    destruct (Hu2 k); congruence. }
  etransitivity; [apply (message_sum labels outer fsize msize T U env0 labels_nodup)|].
  { intros l _ Hl. now apply HU. }
  { intros l _ _. destruct (msize_or l) as [E|E]; [right; split; [assumption|now apply T_indep]|now left]. }
  f_equal.
  - (* the factor *)
    unfold labels. rewrite filter_app, map_app, lprod_app.
    assert (E1 : lprod (map (fun l => if msize l =? fsize l then 1%R else INR (fsize l)) (filter (fun l => negb (outer l)) (seq 0 N))) = 1%R).
    { assert (G : forall l, In l (filter (fun l => negb (outer l)) (seq 0 N)) -> (if msize l =? fsize l then 1%R else INR (fsize l)) = 1%R).
      { intros l Hl. apply filter_In in Hl as [Hl Ho]. apply in_seq in Hl. apply negb_true_iff in Ho.
        assert (E : msize l = fsize l); [|now rewrite E, Nat.eqb_refl].
        unfold fsize. destruct (Nat.ltb_spec l N); [|lia]. apply Hkeys; [assumption|].
        intros i Hi Ei. destruct (Nat.eq_dec (ax dims i) 1) as [|Hne]; [assumption|exfalso].
        assert (outer l = true); [|congruence]. apply Hout. exists i.
        assert (i < length ps) by (unfold ps; rewrite app_length; lia). split; [assumption|].
        rewrite lab_eq, ax_ps by assumption. destruct (Nat.ltb_spec i (length ks)); [auto|lia]. }
      induction (filter (fun l => negb (outer l)) (seq 0 N)) as [|a l IH]; [reflexivity|]. cbn [map].
      rewrite G by now left. change (lprod (1%R :: ?x)) with (1 * lprod x)%R. rewrite IH; [ring|]. intros; apply G; now right. }
    rewrite E1, Rmult_1_l.
    unfold bm_value. rewrite INR_fold_mul, map_map.
    assert (Ho : forall j, j < length P -> outer (base + j) = negb (ax pp j =? 1)).
    { intros j Hj. apply eq_true_iff_eq. rewrite Hout, negb_true_iff, Nat.eqb_neq. split.
      - intros [k [Hk [E1' E2]]]. rewrite lab_eq in E1' by assumption. rewrite ax_ps in E2.
        destruct (Nat.ltb_spec k (length ks)) as [H|H].
        + assert (nth k (rev ks) 0 < N) by (apply ks_lt; now apply nth_rev_In). lia.
        + replace (k - length ks) with j in E2 by lia. assumption.
      - intros E. exists (length ks + j).
        assert (j < length pp). { destruct (Nat.lt_ge_cases j (length pp)); [assumption|exfalso; apply E; now apply ax_overflow]. }
        assert (Hk : length ks + j < length ps) by (unfold ps; rewrite app_length; lia). split; [assumption|].
        rewrite lab_eq, ax_ps by assumption. destruct (Nat.ltb_spec (length ks + j) (length ks)); [lia|].
        replace (length ks + j - length ks) with j by lia. auto. }
    assert (G : forall l, (forall j, In j l -> j < length P) ->
      lprod (map (fun l => if msize l =? fsize l then 1%R else INR (fsize l)) (filter (fun l => negb (outer l)) (map (Nat.add base) l))) =
      fold_right Rmult 1%R (map (fun x => INR (ax P x)) (filter (fun k => forallb (fun a => ax a k =? 1) [rp; pp]) l))).
    { induction l as [|j l IH]; intros Hl; [reflexivity|]. cbn [map filter].
      assert (Hj : j < length P) by (apply Hl; now left). rewrite Ho by assumption. rewrite negb_involutive.
      cbn [forallb]. rewrite andb_true_r.
      assert (IH' := IH (fun j' H => Hl j' (or_intror H))).
      destruct (Nat.eqb_spec (ax pp j) 1) as [Ep|Ep]; [|rewrite andb_false_r; exact IH'].
      rewrite andb_true_r. cbn [map]. change (lprod (?a :: ?b)) with (a * lprod b)%R. rewrite IH'.
      assert (Ef : fsize (base + j) = ax P j).
      { unfold fsize. destruct (Nat.ltb_spec (base + j) N); [lia|]. f_equal. lia. }
      rewrite Ef. destruct (Nat.eqb_spec (ax rp j) 1) as [Er|Er].
      - cbn [map fold_right]. apply Hrp in Er; [|assumption]. rewrite Er.
        cbn [forallb]. destruct (Nat.eqb_spec 1 (ax P j)) as [E|E]; [rewrite <- E; change (INR 1) with 1%R; ring|ring].
      - destruct (msize_or (base + j)) as [E|E]; [exfalso; apply Er; now apply Hrp|].
        rewrite E, Ef, Nat.eqb_refl. cbn [forallb]. ring. }
    apply G. intros j Hj. apply in_seq in Hj. lia.
  - (* the sum over the parent's axes *)
    rewrite total_nonunit.
    2:{ intros k Hk E e x.
        assert (A : forall a : arr R, broadcasts_to (ash a) ps -> bget a (upd e k x) = bget a e).
        { intros a [_ Ha]. apply bget_indep. destruct (Ha k); congruence. }
        now rewrite (A z), (A u). }
    set (NU := filter (fun k => negb (ax ps k =? 1)) (seq 0 (length ps))).
    pose proof (itersum_rename_on lab (seq 0 (length ps)) (fun k => ax ps k) (fun e => bget z e * bget u e)%R NU env0) as HR.
    change (fun k : nat => env0 (lab k)) with env0 in HR. rewrite <- HR.
    + transitivity (itersum (map (fun k => (lab k, ax ps k)) NU)
        (fun e => itersum (map (fun l => (l, msize l)) (filter (fun l => negb (outer l)) labels)) T e * U e)%R env0).
      * apply itersum_perm.
        2:{ rewrite map_map. cbn [fst]. rewrite map_id. apply NoDup_filter, labels_nodup. }
        replace (map (fun k => (lab k, ax ps k)) NU) with (map (fun l => (l, fsize l)) (map lab NU)).
        2:{ rewrite map_map. apply map_ext_in. intros k Hk. apply filter_In in Hk as [Hk E]. apply in_seq in Hk.
            apply negb_true_iff, Nat.eqb_neq in E. rewrite lab_size by (lia || assumption). reflexivity. }
        apply Permutation_map. apply NoDup_Permutation.
        -- apply NoDup_filter, labels_nodup.
        -- assert (G : forall l, NoDup l -> (forall x, In x l -> x < length ps) -> NoDup (map lab l)).
           { induction l as [|x l IH]; intros Hn Hx; [constructor|]. inversion Hn; subst. cbn [map]. constructor.
             - intros Hc. apply in_map_iff in Hc as [y [Ey Hy]]. apply lab_inj in Ey; [subst; contradiction|apply Hx; now right|apply Hx; now left].
             - apply IH; [assumption|]. intros; apply Hx; now right. }
           apply G; [apply NoDup_filter, seq_NoDup|]. intros x Hx. apply filter_In in Hx as [Hx _]. apply in_seq in Hx. lia.
        -- intros l. rewrite filter_In, Hout, in_map_iff. split.
           ++ intros [_ [k [Hk [E1 E2]]]]. exists k. split; [assumption|]. apply filter_In. rewrite in_seq.
              split; [lia|now apply negb_true_iff, Nat.eqb_neq].
           ++ intros [k [E Hk]]. apply filter_In in Hk as [Hk E2]. apply in_seq in Hk. apply negb_true_iff, Nat.eqb_neq in E2.
              assert (Hk' : k < length ps) by lia. split; [|exists k; auto].
              rewrite <- E, lab_eq by assumption. unfold labels. apply in_app_iff.
              destruct (Nat.ltb_spec k (length ks)) as [H|H].
              ** left. apply in_seq. assert (nth k (rev ks) 0 < N) by (apply ks_lt; now apply nth_rev_In). lia.
              ** right. apply in_map. apply in_seq. unfold ps in Hk'. rewrite app_length in Hk'. destruct pp_ok as [Hl _]. lia.
      * apply itersum_ext. intros e' _ He'. cbn beta. unfold U.
        change (fun k : nat => e' (lab k)) with (op_env lu e').
        f_equal. rewrite Hval.
        2:{ intros l Hl Hne. apply Hin in Hl as [k [Hk [Ek <-]]].
            assert (E : ax ps k <> 1). { unfold keep in Ek. apply andb_true_iff in Ek as [Ek _]. now apply negb_true_iff, Nat.eqb_neq in Ek. }
            destruct (msize_or (lab k)) as [E'|E']; [contradiction|]. rewrite E', lab_size by assumption.
            assert (Hm : In (lab k, ax ps k) (map (fun k => (lab k, ax ps k)) NU)).
            { apply in_map_iff. exists k. split; [reflexivity|]. apply filter_In. rewrite in_seq. split; [lia|]. now apply negb_true_iff, Nat.eqb_neq. }
            destruct (He' _ _ Hm) as [Hlt|[m [Hm' Hlt]]]; [assumption|].
            apply in_map_iff in Hm' as [k' [Ekk Hk']]. injection Ekk as E1 <-. apply filter_In in Hk' as [Hk' _]. apply in_seq in Hk'.
            apply lab_inj in E1; [now subst|lia|assumption]. }
        unfold free_sum.
        rewrite (itersum_split (fun q => memb (fst q) (op_labels LO))).
        2:{ rewrite map_map. cbn [fst]. rewrite map_id. apply NoDup_filter, labels_nodup. }
        assert (Hf : forall (p : nat -> bool) A, filter (fun x => p (fst x)) (map (fun l => (l, msize l)) A) = map (fun l => (l, msize l)) (filter p A)).
        { intros p A. induction A as [|l A IH]; [reflexivity|]. cbn [map filter fst]. destruct (p l); cbn [map]; now rewrite IH. }
        rewrite (Hf (fun l => memb l (op_labels LO))), (Hf (fun l => negb (memb l (op_labels LO)))).
        rewrite (itersum_ext_all _ (itersum (map (fun l => (l, msize l)) (filter (fun l => negb (memb l (op_labels LO))) (filter (fun l => negb (outer l)) labels))) T) T).
        2:{ intros e. rewrite itersum_const.
            - assert (E : map (fun p => INR (snd p)) (map (fun l => (l, msize l)) (filter (fun l => negb (memb l (op_labels LO))) (filter (fun l => negb (outer l)) labels)))
                = map (fun _ => 1%R) (filter (fun l => negb (memb l (op_labels LO))) (filter (fun l => negb (outer l)) labels))).
              { rewrite map_map. apply map_ext_in. intros l Hl. apply filter_In in Hl as [_ Hl]. apply negb_true_iff in Hl.
                cbn [snd]. unfold msize. now rewrite Hl. }
              rewrite E. clear. induction (filter (fun l => negb (memb l (op_labels LO))) (filter (fun l => negb (outer l)) labels)) as [|a l IH]; [cbn; ring|].
              cbn [map fold_right]. rewrite Rmult_assoc, IH. ring.
            - intros l Hl. rewrite map_map in Hl. cbn [fst] in Hl. rewrite map_id in Hl. apply filter_In in Hl as [_ Hl].
              apply negb_true_iff in Hl. apply T_indep. unfold msize. now rewrite Hl. }
        apply itersum_perm.
        2:{ rewrite map_map. cbn [fst]. rewrite map_id. apply NoDup_filter, NoDup_filter, labels_nodup. }
        apply Permutation_map. apply NoDup_Permutation.
        -- apply NoDup_filter, NoDup_filter, labels_nodup.
        -- apply NoDup_filter, NoDup_nodup.
        -- intros l. rewrite !filter_In, !negb_true_iff, memb_In, memb_false, Houts. split.
           ++ intros [[Hl Ho] Hi]. split; [assumption|]. intros [Ho' _]. congruence.
           ++ intros [Hi Hn]. split; [split|assumption].
              ** pose proof Hi as Hi'. unfold LO in Hi'. apply in_lab_labels in Hi' as [[q [Hq Hl]]|[j [q [-> [Hq Hj]]]]].
                 --- unfold labels. apply in_app_iff. left. apply in_seq. destruct (ops_fit q Hq) as (_ & Hb & _). specialize (Hb l Hl). lia.
                 --- unfold labels. apply in_app_iff. right. apply in_map. apply in_seq. specialize (ops_plates q Hq). lia.
              ** destruct (outer l) eqn:Eo; [|reflexivity]. exfalso. apply Hn. auto.
    + intros L L' H. f_equal; apply bget_ext; intros k Hk _; apply H; apply in_seq.
      * destruct Hz as [Hz1 _]. lia.
      * destruct Hu as [Hu1 _]. lia.
    + intros a b Ha Hb. apply in_seq in Ha, Hb. apply lab_inj; lia.
    + intros k Hk. apply filter_In in Hk as [Hk _]. exact Hk.
Qed.
End Msg.
