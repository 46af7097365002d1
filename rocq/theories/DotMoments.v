(** SumMultiply: the moments are expectations of the sum-product. *)
From Coq Require Import List Arith ZArith Lia Bool Reals Lra Permutation FunctionalExtensionality.
From Verif Require Import Base Shapes SpecShapes ShapesLemmas NumPy MiscArray SpecArray TensorLemmas
  EinsumLemmas EinsumGen PlateSumLemmas PlateSum2Lemmas MessageLemmas SumMultiplyLemmas NetworkLemmas GateLemmas PGate Dot SpecDot
  DotEinsum DotSum DotMessage DotAdjoint DotNode DotPart DotExpect DotInit DotFinal.
Import ListNotations.
Open Scope nat_scope.

Lemma zs_fits : forall P D sz nodes kss us, length kss = length nodes ->
  (forall n ks dims, nth_error kss n = Some ks -> nth_error (map fst nodes) n = Some dims -> keys_fit D sz ks dims) ->
  Forall2 (fun (nd : shape * pkind) u => mom_ok P (fst nd) (is_delta (snd nd)) u) nodes us ->
  Forall2 (par_fits P D sz) (zip3 kss us (map (fun p => is_delta (snd p)) nodes)) (map fst nodes) /\
  map (fun z : par => fst (fst z)) (zip3 kss us (map (fun p => is_delta (snd p)) nodes)) = kss /\
  Forall2 (keys_fit D sz) kss (map fst nodes).
Proof.
  intros P D sz nodes. induction nodes as [|[dims kind] nodes IH]; intros [|ks kss] us HL HK HM; try discriminate.
  - inversion HM; subst. repeat split; constructor.
  - inversion HM as [|? u ? us' M1 M2]; subst. injection HL as HL.
    destruct (IH kss us' HL) as (I1 & I2 & I3); [|assumption|].
    + intros n k d H1 H2. apply (HK (S n)); assumption.
    + pose proof (HK 0 ks dims eq_refl eq_refl) as K0. unfold zip3 in *. cbn [map combine fst snd]. split; [|split].
      * constructor; [|assumption]. split; assumption.
      * now rewrite I2.
      * constructor; assumption.
Qed.

Lemma all_entries : forall gamma P D sz p L second nodes kss parents,
  Forall2 (fun (nd : shape * pkind) (pa : pmom * (env -> list outcome)) => describes gamma P (fst nd) (snd nd) (fst pa) (snd pa)) nodes parents ->
  Forall2 (keys_fit D sz) kss (map fst nodes) -> plate_in P p ->
  (forall ks, In ks kss -> forall k, In k (two D second ks) -> L k < twice D sz k) ->
  prod_entries (flat_map (mops D second) (zip3 kss (map fst parents) (map (fun q => is_delta (snd q)) nodes))) p L =
  lprod (map (fun q => mean_of (snd q) (fst q)) (combine (map (fun ks => par_value D second ks L) kss) (map (fun pa => snd pa p) parents))).
Proof.
  intros gamma P D sz p L second nodes kss parents H. revert kss.
  induction H as [|[dims kind] [u dist] nodes parents H1 H2 IH]; intros kss HK Hp HL; inversion HK as [|ks ? kss' ? K1 K2]; subst; [reflexivity|].
  unfold zip3 in *. cbn [map combine flat_map fst snd] in *. rewrite prod_entries_app.
  rewrite (par_entries gamma P D sz ks dims kind u dist second p L H1 K1 Hp) by (apply HL; now left).
  rewrite (IH kss' K2 Hp) by (intros q Hq k Hk; apply (HL q (or_intror Hq) k Hk)).
  reflexivity.
Qed.

Lemma drawn_length : forall (os : list outcome) ds, drawn os ds -> length os = length ds.
Proof. intros os ds H. eapply F2_length; eassumption. Qed.

Lemma value_split : forall D kss second L os, length os = length kss ->
  lprod (map (fun q : (outcome -> R) * outcome => (fst q) (snd q)) (combine (map (fun ks => par_value D second ks L) kss) os)) =
  (scale_of os * (if second then
     lprod (map (fun p => bget (snd p) (at_index (map (fun k => L (D + k)%nat) (fst p)))) (combine kss (map o_value os))) *
     lprod (map (fun p => bget (snd p) (at_index (map L (fst p)))) (combine kss (map o_value os)))
   else lprod (map (fun p => bget (snd p) (at_index (map L (fst p)))) (combine kss (map o_value os)))))%R.
Proof.
  intros D kss second L. induction kss as [|ks kss IH]; intros [|o os] H; try discriminate.
  - destruct second; cbn; ring.
  - injection H as H. cbn [map combine fst snd]. change (lprod (?a :: ?l)) with (a * lprod l)%R.
    change (scale_of (o :: os)) with (o_scale o * scale_of os)%R. rewrite (IH os H). unfold par_value. destruct second; ring.
Qed.

Section Moments.
Variables (gamma : bool) (P : shape) (full : list nat) (nodes : list (shape * pkind)) (keysets : list (list nat)) (keys_out : list nat) (size : nat -> nat).
Variable parents : list (pmom * (env -> list outcome)).
Hypothesis full_ok : enumerates full keysets.
Hypothesis args_ok : valid_arguments (map fst nodes) keysets keys_out.
Hypothesis size_is : forall k, In k (concat keysets) -> key_length (map fst nodes) keysets k (size k).
Hypothesis par_ok : Forall2 (fun (nd : shape * pkind) (pa : pmom * (env -> list outcome)) => describes gamma P (fst nd) (snd nd) (fst pa) (snd pa)) nodes parents.
Notation D := (length full).
Notation sz := (sz full size).
Notation out := (out full keys_out).
Let kss := map (map (pos full)) keysets.
Let us := map fst parents.
Let cs := map (fun p : shape * pkind => is_delta (snd p)) nodes.
Let zs := zip3 kss us cs.
Let shp := map size keys_out.

Lemma klen : length keysets = length nodes.
Proof. destruct args_ok as (_ & F & _). apply F2_length in F. rewrite map_length in F. lia. Qed.
Lemma plen : length parents = length nodes.
Proof. apply F2_length in par_ok. lia. Qed.
Lemma kss_fit : forall n ks dims, nth_error kss n = Some ks -> nth_error (map fst nodes) n = Some dims -> keys_fit D sz ks dims.
Proof.
  intros n ks dims H1 H2. unfold kss in H1. rewrite nth_error_map in H1. destruct (nth_error keysets n) as [k|] eqn:E; [|discriminate].
  cbn in H1. injection H1 as <-. eapply keys_fit_pos; eassumption.
Qed.
Lemma zs_facts : Forall2 (par_fits P D sz) zs (map fst nodes) /\ map (fun z : par => fst (fst z)) zs = kss /\
  Forall2 (keys_fit D sz) kss (map fst nodes).
Proof.
  apply zs_fits.
  - unfold kss. rewrite map_length. apply klen.
  - apply kss_fit.
  - unfold us. clear zs. revert par_ok. clear. intros H. induction H as [|nd pa nodes parents H1 H2 IH]; constructor; [|assumption].
    eapply describes_mom_ok; eassumption.
Qed.
Lemma zs_nonempty : zs <> [].
Proof.
  destruct zs_facts as [F _]. intros E. rewrite E in F. inversion F as [E'|]. destruct args_ok as (N & _). now apply N.
Qed.

Lemma moment_expect : forall second, exists y,
  einsum (lab_ops (nkeys D second) (all_ops D zs second))
         (down_keys (nkeys D second) (list_max (map plates_of (all_ops D zs second))) ++ two D second out) = Ok y /\
  variable_of P (if second then shp ++ shp else shp) y /\
  forall p, plate_in P p -> forall o o', index_in shp o -> index_in shp o' ->
    bget y (join (length (if second then shp ++ shp else shp)) p (at_index (if second then o ++ o' else o))) =
    expect (map (fun pa => snd pa p) parents)
      (fun os => let Y := sum_product_at size keysets keys_out (map o_value os) in
                 if second then scale_of os * (Y o * Y o') else scale_of os * Y o)%R.
Proof.
  intros second. destruct zs_facts as (F1 & F2 & F3).
  pose proof (out_is_nodup full (map fst nodes) keysets keys_out full_ok args_ok) as On.
  pose proof (out_is_lt full (map fst nodes) keysets keys_out full_ok args_ok) as Ol.
  destruct (moment_value P D sz zs (map fst nodes) out F1 zs_nonempty
    (used_pos full keysets full_ok zs F2) (attained_pos full _ keysets keys_out size full_ok args_ok size_is zs F2) On Ol second)
    as (y & Ey & Vy & Hy).
  exists y. split; [exact Ey|].
  rewrite (shape_pos full (map fst nodes) keysets keys_out size full_ok args_ok second) in Vy.
  split; [exact Vy|]. intros p Hp o o' Ho Ho'.
  assert (Lo : length o = length keys_out) by (apply F2_length in Ho; unfold shp in Ho; rewrite map_length in Ho; lia).
  assert (Lo' : length o' = length keys_out) by (apply F2_length in Ho'; unfold shp in Ho'; rewrite map_length in Ho'; lia).
  set (L := if second then fun j => if j <? D then out_env keys_out o' (nth j full 0) else out_env keys_out o (nth (j - D) full 0)
            else fun j => out_env keys_out o (nth j full 0)).
  assert (OF : forall k, In k keys_out -> In k full) by (intros k Hk; eapply out_full; eassumption).
  assert (LA : second = true -> forall k, In k full -> L (pos full k) = out_env keys_out o' k).
  { intros -> k Hk. unfold L. destruct (pos_spec full k Hk) as (_ & H1 & H2). destruct (Nat.ltb_spec (pos full k) D); [|lia]. now rewrite H2. }
  assert (LB : second = true -> forall k, In k full -> L (D + pos full k) = out_env keys_out o k).
  { intros -> k Hk. unfold L. destruct (pos_spec full k Hk) as (_ & H1 & H2). destruct (Nat.ltb_spec (D + pos full k) D); [lia|].
    replace (D + pos full k - D) with (pos full k) by lia. now rewrite H2. }
  assert (LC : second = false -> forall k, In k full -> L (pos full k) = out_env keys_out o k).
  { intros -> k Hk. unfold L. destruct (pos_spec full k Hk) as (_ & H1 & H2). now rewrite H2. }
  assert (EM : forall f o0, (forall k, In k full -> f (pos full k) = out_env keys_out o0 k) -> length o0 = length keys_out -> map f out = o0).
  { intros f o0 Hf H0. unfold DotFinal.out. rewrite map_map. rewrite (map_ext_in _ (out_env keys_out o0)) by (intros k Hk; apply Hf; auto).
    eapply out_env_map; eassumption. }
  assert (Emap : map L (two D second out) = if second then o ++ o' else o).
  { destruct second; cbn [two].
    - rewrite map_app, map_map. f_equal; [|now apply EM; auto]. apply (EM (fun j => L (D + j))); auto.
    - apply EM; auto. }
  assert (Elen : length (two D second out) = length (if second then shp ++ shp else shp)).
  { destruct second; cbn [two]; unfold DotFinal.out, shp; rewrite ?app_length, ?map_length; lia. }
  assert (BO : forall o0, index_in shp o0 -> forall k, In k keys_out -> out_env keys_out o0 k < size k).
  { intros o0 H0 k Hk. destruct (index_of_in k keys_out Hk) as (i & E & Hi & En). unfold out_env. rewrite E.
    unfold index_in, shp in H0. clear -H0 Hi En.
    assert (G : forall (a b : list nat), Forall2 lt a b -> forall i, i < length b -> nth i a 0 < nth i b 0).
    { intros a b H. induction H; intros [|j] Hj; cbn in *; try lia. apply IHForall2. lia. }
    specialize (G _ _ H0 i ltac:(rewrite map_length; lia)). rewrite (nth_indep (map size keys_out) 0 (size 0)) in G by (rewrite map_length; lia).
    rewrite map_nth, En in G. assumption. }
  assert (HLout : forall k, In k (two D second out) -> L k < twice D sz k).
  { assert (A : forall k, In k out -> exists x, In x keys_out /\ k = pos full x) by (intros k Hk; apply in_map_iff in Hk as [x [<- Hx]]; eauto).
    intros k Hk. destruct second; cbn [two] in Hk.
    - apply in_app_or in Hk as [Hk|Hk].
      + apply in_map_iff in Hk as [j [<- Hj]]. destruct (A j Hj) as (x & Hx & ->). rewrite twice_add, LB by auto.
        erewrite sz_pos by eauto. now apply BO.
      + destruct (A k Hk) as (x & Hx & ->). rewrite twice_lt by auto. rewrite LA by auto. erewrite sz_pos by eauto. now apply BO.
    - destruct (A k Hk) as (x & Hx & ->). rewrite twice_lt by auto. rewrite LC by auto. erewrite sz_pos by eauto. now apply BO. }
  specialize (Hy p L Hp HLout). unfold entry in Hy. rewrite Emap, Elen in Hy. rewrite Hy. clear Hy.
  set (ax2 := map (fun k => (k, twice D sz k)) (filter (fun k => negb (memb k (two D second out))) (seq 0 (nkeys D second)))).
  set (ds := map (fun pa => snd pa p) parents).
  assert (Lds : length kss = length ds) by (unfold kss, ds; rewrite !map_length, klen, plen; reflexivity).
  transitivity (itersum ax2 (fun L => expect ds (fun os => lprod (map (fun q : (outcome -> R) * outcome => (fst q) (snd q)) (combine (map (fun ks => par_value D second ks L) kss) os)))) L).
  { apply itersum_ext. intros e' He1 He2. unfold all_ops, zs, us, cs. rewrite (all_entries gamma P D sz p e' second nodes kss parents par_ok F3 Hp).
    - apply expect_product. now rewrite map_length.
    - intros ks Hks k Hk.
      assert (Hkn : k < nkeys D second).
      { assert (Hks' : forall j, In j ks -> j < D).
        { clear -F3 Hks. induction F3 as [|a b kss' l (_ & _ & B & _) F IH]; [destruct Hks|]. destruct Hks as [->|Hks]; [assumption|auto]. }
        destruct second; cbn [two nkeys] in *; [|auto]. apply in_app_or in Hk as [Hk|Hk]; [apply in_map_iff in Hk as [j [<- Hj]]; specialize (Hks' j Hj); lia|].
        specialize (Hks' k Hk). lia. }
      destruct (memb k (two D second out)) eqn:Em.
      + apply memb_In in Em. rewrite He1; [now apply HLout|]. unfold ax2. rewrite map_map. cbn [fst]. rewrite map_id.
        intros Hin. apply filter_In in Hin as [_ Hin]. apply negb_true_iff in Hin. apply memb_In in Em. congruence.
      + assert (Hin : In (k, twice D sz k) ax2).
        { unfold ax2. apply in_map_iff. exists k. split; [reflexivity|]. apply filter_In. split; [apply in_seq; lia|now rewrite Em]. }
        destruct (He2 k _ Hin) as [H|[m [Hm H]]]; [assumption|]. unfold ax2 in Hm. apply in_map_iff in Hm as [j [E _]].
        injection E as -> <-. assumption. }
  rewrite (expect_itersum ds ax2 (fun os L => lprod (map (fun q : (outcome -> R) * outcome => (fst q) (snd q)) (combine (map (fun ks => par_value D second ks L) kss) os))) L).
  apply expect_ext. intros os Hos.
  assert (Los : length os = length kss) by (rewrite (drawn_length _ _ Hos); unfold ds in *; lia).
  rewrite (itersum_ext_all _ _ (fun L => scale_of os * (if second then at_pos full keysets (map o_value os) (fun k => L (D + k)%nat) * at_pos full keysets (map o_value os) L
     else at_pos full keysets (map o_value os) L))%R) by (intros e; rewrite value_split by assumption; destruct second; reflexivity).
  rewrite itersum_scal. cbv zeta.
  assert (RD : reads (seq 0 D) (at_pos full keysets (map o_value os))) by (eapply at_pos_reads; eassumption).
  destruct second.
  - f_equal. unfold ax2. cbn [two]. unfold nkeys. rewrite (itersum_two D sz out _ _ L RD RD Ol).
    f_equal; eapply free_sum_pos; eauto.
  - f_equal. unfold ax2. cbn [two nkeys]. rewrite <- (free_sum_pos full (map fst nodes) keysets keys_out size full_ok args_ok (map o_value os) o L) by auto.
    f_equal. apply map_ext_in. intros k Hk. apply filter_In in Hk as [Hk _]. apply in_seq in Hk. now rewrite twice_lt by lia.
Qed.

(** ** The mean and the second moment of the model *)
Let g := SM kss out D cs gamma shp.
Lemma mean_ok : exists y, sm_mean g us = Ok y /\ variable_of P shp y /\
  forall p, plate_in P p -> forall o, index_in shp o ->
    bget y (join (length shp) p (at_index o)) =
    expect (map (fun pa => snd pa p) parents) (fun os => scale_of os * sum_product_at size keysets keys_out (map o_value os) o)%R.
Proof.
  destruct (moment_expect false) as (y & E & V & H). exists y. split; [|split; [exact V|]].
  - unfold sm_mean, g. cbn [sm_nkeys sm_in sm_out].
    destruct (mean_ops D kss us cs) as [M1 M2]; [unfold kss, us; rewrite !map_length, klen, plen; reflexivity|unfold cs, us; rewrite !map_length, plen; reflexivity|].
    rewrite M1, M2. exact E.
  - intros p Hp o Ho. exact (H p Hp o o Ho Ho).
Qed.
Lemma second_ok : exists y, sm_second g us = Ok y /\ variable_of P (shp ++ shp) y /\
  forall p, plate_in P p -> forall o o', index_in shp o -> index_in shp o' ->
    bget y (join (length (shp ++ shp)) p (at_index (o ++ o'))) =
    expect (map (fun pa => snd pa p) parents)
      (fun os => scale_of os * (sum_product_at size keysets keys_out (map o_value os) o * sum_product_at size keysets keys_out (map o_value os) o'))%R.
Proof.
  destruct (moment_expect true) as (y & E & V & H). exists y. split; [|split; [exact V|exact H]].
  destruct zs_facts as (F1 & F2 & F3). destruct (second_ops P D sz zs _ F1) as (counts & ops & E1 & E2 & E3 & E4).
  unfold sm_second, g. cbn [sm_nkeys sm_in sm_out sm_const]. fold zs. rewrite E1. cbn [bind]. rewrite E2. cbn [bind].
  rewrite E3, E4. exact E.
Qed.

(** ** The scale *)
Lemma variable0 : forall a, variable_of P [] a -> broadcasts_to (ash a) P.
Proof. intros a (_ & _ & H). now rewrite app_nil_r in H. Qed.
Lemma scale_fold : forall nodes parents, gamma = true ->
  Forall2 (fun (nd : shape * pkind) (pa : pmom * (env -> list outcome)) => describes gamma P (fst nd) (snd nd) (fst pa) (snd pa)) nodes parents ->
  forall acc, broadcasts_to (ash (fst acc)) P -> broadcasts_to (ash (snd acc)) P ->
  exists x2 x3, foldM (fun acc p =>
           let '(u, is_const) := (p : pmom * bool) in
           if is_const then Ok (np_map (fun v => v * 1)%R (fst acc), np_map (fun v => v + 0)%R (snd acc))
           else a <- mom2 u ;; la <- mom3 u ;;
             x2 <- np_multiply (fst acc) a ;; x3 <- np_map2 Rplus (snd acc) la ;; Ok (x2, x3))
        acc (combine (map fst parents) (map (fun p : shape * pkind => is_delta (snd p)) nodes)) = Ok (x2, x3) /\
    broadcasts_to (ash x2) P /\ broadcasts_to (ash x3) P /\
    forall p, plate_in P p ->
      bget x2 p = (bget (fst acc) p * lprod (map (fun pa => mean_of (snd pa p) o_scale) parents))%R /\
      bget x3 p = (bget (snd acc) p + lsum (map (fun pa => mean_of (snd pa p) (fun o => ln (o_scale o))) parents))%R.
Proof.
  intros ns ps Hg H. induction H as [|[dims kind] [u dist] ns ps H1 H2 IH]; intros acc A1 A2.
  - exists (fst acc), (snd acc). cbn [map combine foldM]. destruct acc as [a2 a3]. cbn [fst snd]. split; [reflexivity|]. split; [assumption|]. split; [assumption|].
    intros p Hp. unfold lprod, lsum. cbn [fold_right]. split; ring.
  - cbn [map combine foldM fst snd] in *. destruct H1 as (D1 & D2 & D3). rewrite Hg in D3.
    destruct (is_delta kind) eqn:Ek.
    + destruct u as [x|? ?|? ? ? ?]; try contradiction. destruct D3 as [_ D3]. cbn [bind].
      destruct (IH (np_map (fun v => v * 1)%R (fst acc), np_map (fun v => v + 0)%R (snd acc))) as (x2 & x3 & E & B2 & B3 & HV); [exact A1|exact A2|].
      exists x2, x3. split; [exact E|]. split; [assumption|]. split; [assumption|]. intros p Hp. destruct (HV p Hp) as [V2 V3]. rewrite V2, V3.
      cbn [fst snd map]. change (lprod (?a :: ?l)) with (a * lprod l)%R. change (lsum (?a :: ?l)) with (a + lsum l)%R.
      rewrite !ExpFamBound.bget_map.
      rewrite (mean_ext (dist p) o_scale (fun _ => 1%R)) by (intros o Ho; exact (proj1 (D3 p o Hp Ho))).
      rewrite (mean_ext (dist p) (fun o => ln (o_scale o)) (fun _ => 0%R)) by (intros o Ho; destruct (D3 p o Hp Ho) as [-> _]; apply ln_1).
      rewrite D1, mean_zero by assumption. split; ring.
    + destruct u as [x|? ?|x xx a la]; try contradiction. destruct D3 as (_ & _ & Va & Vl & _ & _ & Ha & Hl). cbn [mom2 mom3 bind].
      destruct (map2_upper _ _ _ Rmult (fst acc) a P A1 (variable0 a Va)) as (y2 & E2 & _ & B2 & V2).
      destruct (map2_upper _ _ _ Rplus (snd acc) la P A2 (variable0 la Vl)) as (y3 & E3 & _ & B3 & V3).
      unfold np_multiply. rewrite E2. cbn [bind]. rewrite E3. cbn [bind].
      destruct (IH (y2, y3) B2 B3) as (x2 & x3 & E & C2 & C3 & HV). exists x2, x3. split; [exact E|]. split; [assumption|]. split; [assumption|].
      intros p Hp. destruct (HV p Hp) as [W2 W3]. rewrite W2, W3. cbn [fst snd map].
      change (lprod (?a :: ?l)) with (a * lprod l)%R. change (lsum (?a :: ?l)) with (a + lsum l)%R.
      rewrite <- Ha, <- Hl by assumption. cbn [fst snd]. rewrite V2, V3. split; ring.
Qed.
End Moments.
