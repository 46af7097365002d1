(** Lemmas about saving and loading. *)
From Coq Require Import String List Arith ZArith Lia Bool Reals Lra FinFun.
From Verif Require Import Base NumPy Engine SpecEngine EngineLemmas EngineLemmas2.
Import ListNotations.
Open Scope nat_scope.

Lemma NoDup_app2 : forall A (l m : list A), NoDup l -> NoDup m ->
  (forall x, In x l -> In x m -> False) -> NoDup (l ++ m).
Proof.
  induction l as [|a l IH]; intros m Hl Hm Hd; [exact Hm|]. inversion Hl as [|? ? Ha Hl' E]; subst.
  cbn. constructor.
  - intros H. apply in_app_iff in H as [H|H]; [contradiction|]. apply (Hd a); [now left|assumption].
  - apply IH; auto. intros x Hx Hx'. apply (Hd x); [now right|assumption].
Qed.
Lemma NoDup_app_inv : forall A (l m : list A), NoDup (l ++ m) ->
  NoDup l /\ NoDup m /\ (forall x, In x l -> In x m -> False).
Proof.
  induction l as [|a l IH]; intros m H; cbn in H.
  - split; [constructor|]. split; [assumption|]. intros x [].
  - inversion H as [|? ? Ha Hl E]; subst. destruct (IH m Hl) as (H1 & H2 & H3).
    split; [|split; [assumption|]].
    + constructor; [|assumption]. intros Hin. apply Ha. apply in_app_iff; now left.
    + intros x [<-|Hx] Hm; [|eauto]. apply Ha. apply in_app_iff. now right.
Qed.

Lemma flookup_in : forall f p v, NoDup (map fst f) -> In (p, v) f -> flookup f p = Some v.
Proof.
  intros f p v. unfold flookup. induction f as [|[q w] f IH]; intros Hnd Hin; [destruct Hin|].
  cbn [find fst]. destruct (path_eq_dec q p) as [->|Hne].
  - destruct Hin as [Hin|Hin]; [injection Hin as <-; reflexivity|].
    exfalso. inversion Hnd as [|? ? Ha _ E]; subst. apply Ha. apply in_map_iff. exists (p, v). auto.
  - inversion Hnd as [|? ? Ha Hnd' E]; subst. destruct Hin as [Hin|Hin]; [congruence|]. now apply IH.
Qed.
Lemma flookup_none : forall f p, ~ In p (map fst f) -> flookup f p = None.
Proof.
  intros f p H. unfold flookup. destruct (find _ f) as [q|] eqn:E; [|reflexivity].
  apply find_some in E as [Hq E]. destruct (path_eq_dec (fst q) p) as [<-|]; [|discriminate].
  exfalso. apply H. now apply in_map.
Qed.

Lemma nth_error_ext' : forall A (l m : list A),
  (forall j, nth_error l j = nth_error m j) -> l = m.
Proof.
  induction l as [|a l IH]; intros [|b m] H; auto.
  - specialize (H 0). discriminate.
  - specialize (H 0). discriminate.
  - pose proof (H 0) as H0. cbn in H0. injection H0 as ->. f_equal. apply IH.
    intros j. apply (H (S j)).
Qed.

Section L.
Variable name_of : nat -> string.
Variable stochastic : nat -> bool.
Variable update_mask : nat -> world -> world.

Notation save := (save name_of stochastic).
Notation save_node := (save_node name_of).
Notation load := (load name_of stochastic update_mask).
Notation load_node := (load_node name_of update_mask).

(** ** Content of a saved file *)

Definition node_data (nm : string) (st : nstate) : file :=
  map (fun p => (PData nm (DPhi (fst p)), VReal (snd p))) (enumerate (n_phi st)) ++
  [(PData nm DF, VReal (n_f st))] ++ [(PData nm DG, VReal (n_g st))] ++
  map (fun p => (PData nm (DU (fst p)), VReal (snd p))) (enumerate (n_u st)) ++
  [(PData nm DObserved, VBool (n_observed st))].

Definition node_part (w : world) (n : nat) : file :=
  if stochastic n then [(PNode (name_of n), VGroup)] ++ node_data (name_of n) (w n) else [].

Definition term_part (s : vb) (n : nat) : file :=
  match term_of s n with Ok t => [(PBound (name_of n), VVec t)] | Err _ => [] end.

Definition file_of (s : vb) (ns : list nat) : file :=
  [(PNodes, VGroup)] ++ flat_map (node_part (v_world s)) ns ++
  [(PL, VVec (v_L s))] ++ [(PCputime, VVec (v_cputime s))] ++
  [(PIter, VNat (v_iter s))] ++ [(PConverged, VFlag (v_converged s))] ++
  (match v_callback_output s with Some c => [(PCallback, VCb c)] | None => [] end) ++
  [(PBounds, VGroup)] ++ flat_map (term_part s) ns ++
  (match v_user_data s with
   | Some u => [(PUserGroup, VGroup)] ++ map (fun kv => (PUser (fst kv), VUser (snd kv))) u
   | None => []
   end).

(** [m] appends [es] to the file [fn], or is killed after a strict prefix of
    it. *)
Definition wr (s0 : vb) (fn : string) (m : ST vb unit) (es : file) : Prop :=
  forall s f, same_disk_only s0 s ->
    files (v_disk s) fn = Some f -> NoDup (map fst (f ++ es)) ->
    exists s' r k, m s = (s', r) /\ same_disk_only s0 s' /\
      files (v_disk s') fn = Some (f ++ firstn k es) /\
      (forall g, g <> fn -> files (v_disk s') g = files (v_disk s) g) /\
      (r = Ok tt /\ k = length es /\ (crash (v_disk s) = None -> crash (v_disk s') = None) \/
       r = Err Killed /\ k < length es /\ crash (v_disk s) <> None).

Lemma wr_ret : forall s0 fn, wr s0 fn (ret tt) [].
Proof.
  intros s0 fn s f H1 H3 H4. exists s, (Ok tt), 0. rewrite firstn_nil, app_nil_r in *.
  repeat split; auto.
Qed.
Lemma wr_bind : forall s0 fn m k e1 e2, wr s0 fn m e1 -> wr s0 fn k e2 ->
  wr s0 fn (m >>> k) (e1 ++ e2).
Proof.
  intros s0 fn m k e1 e2 Hm Hk s f H1 H3 H4.
  rewrite app_assoc in H4.
  destruct (Hm s f H1 H3) as (s1 & r1 & k1 & E1 & F1 & F3 & F4 & F5).
  { rewrite map_app in H4. now apply NoDup_app_inv in H4. }
  destruct F5 as [(-> & -> & F5)|(-> & F5 & F6)].
  - rewrite firstn_all in F3.
    destruct (Hk s1 (f ++ e1) F1 F3 H4) as (s2 & r2 & k2 & E2 & G1 & G3 & G4 & G5).
    exists s2, r2, (length e1 + k2). unfold sbind. rewrite E1. split; [exact E2|]. split; [assumption|].
    split; [now rewrite firstn_app_2, app_assoc|]. split; [intros g Hg; now rewrite G4, F4|].
    rewrite app_length.
    destruct G5 as [(-> & -> & G5)|(-> & G5 & G6)].
    + left. auto.
    + right. split; [reflexivity|]. split; [lia|]. intros H. apply G6. auto.
  - exists s1, (Err Killed), k1. unfold sbind. rewrite E1. split; [reflexivity|]. split; [assumption|].
    split. { rewrite F3, firstn_app. replace (k1 - length e1) with 0 by lia. cbn. now rewrite app_nil_r. }
    split; [assumption|]. right. rewrite app_length. repeat split; auto; lia.
Qed.
Lemma wr_create : forall s0 fn p v, wr s0 fn (h5_create fn p v) [(p, v)].
Proof.
  intros s0 fn p v s f H1 H3 H4. unfold h5_create, file_op. rewrite H3.
  rewrite flookup_none.
  2:{ rewrite map_app in H4. apply NoDup_app_inv in H4 as (_ & _ & Hd). intros Hin. apply (Hd p Hin). now left. }
  destruct (crash (v_disk s)) as [[|c]|] eqn:Ec.
  - exists s, (Err Killed), 0. cbn. rewrite app_nil_r. repeat split; auto. right. repeat split; auto; lia || discriminate.
  - eexists _, (Ok tt), 1. split; [reflexivity|]. cbn. split; [eapply sdo_trans; [exact H1|apply sdo_set]|].
    unfold put_file. split; [|split].
    + destruct (string_dec fn fn); [reflexivity|contradiction].
    + intros g Hg. destruct (string_dec g fn); [contradiction|reflexivity].
    + left. repeat split; auto; discriminate.
  - eexists _, (Ok tt), 1. split; [reflexivity|]. cbn. split; [eapply sdo_trans; [exact H1|apply sdo_set]|].
    unfold put_file. split; [|split].
    + destruct (string_dec fn fn); [reflexivity|contradiction].
    + intros g Hg. destruct (string_dec g fn); [contradiction|reflexivity].
    + left. repeat split; auto.
Qed.
Lemma wr_sfor : forall A s0 fn (l : list A) (b : A -> ST vb unit) (e : A -> file),
  (forall a, In a l -> wr s0 fn (b a) (e a)) -> wr s0 fn (sfor l b) (flat_map e l).
Proof.
  induction l as [|a l IH]; intros b e H; cbn; [apply wr_ret|].
  apply wr_bind; [apply H; now left|]. apply IH. intros; apply H; now right.
Qed.
Lemma wr_sfor_map : forall A s0 fn (l : list A) (b : A -> ST vb unit) (e : A -> path * dval),
  (forall a, In a l -> wr s0 fn (b a) [e a]) -> wr s0 fn (sfor l b) (map e l).
Proof.
  intros A s0 fn l b e H. replace (map e l) with (flat_map (fun a => [e a]) l).
  - now apply wr_sfor.
  - clear H. induction l as [|a l IH]; [reflexivity|]. cbn. now rewrite IH.
Qed.
Lemma wr_gets : forall B s0 fn (g : vb -> B) (k : B -> ST vb unit) es,
  (forall s, same_disk_only s0 s -> wr s0 fn (k (g s)) es) -> wr s0 fn (sbind (gets g) k) es.
Proof. intros B s0 fn g k es H s f H1 H3 H4. apply (H s H1 s f); assumption. Qed.

Lemma sdo_world : forall s0 s, same_disk_only s0 s -> v_world s = v_world s0.
Proof. intros s0 s ->. destruct s0; reflexivity. Qed.

Lemma wr_save_node : forall s0 fn n,
  wr s0 fn (save_node fn n) (node_data (name_of n) (v_world s0 n)).
Proof.
  intros s0 fn n. unfold Engine.save_node, node_data. apply wr_gets. intros s Hs.
  rewrite (sdo_world _ _ Hs).
  apply wr_bind. { apply wr_sfor_map. intros; apply wr_create. }
  apply wr_bind; [apply wr_create|]. apply wr_bind; [apply wr_create|].
  apply wr_bind; [|apply wr_create]. apply wr_sfor_map. intros; apply wr_create.
Qed.

(** ** The paths are distinct *)

Lemma enumerate_fst : forall A (l : list A), map fst (enumerate l) = seq 0 (length l).
Proof.
  intros A l. unfold enumerate. generalize 0. induction l as [|a l IH]; intros n; [reflexivity|].
  cbn. f_equal. apply IH.
Qed.

Lemma node_data_paths : forall nm st p, In p (map fst (node_data nm st)) ->
  exists d, p = PData nm d.
Proof.
  intros nm st p H. unfold node_data in H. rewrite !map_app, !map_map in H.
  rewrite !in_app_iff in H. destruct H as [H|[H|[H|[H|H]]]].
  - apply in_map_iff in H as [x [<- _]]. cbn. eauto.
  - destruct H as [<-|[]]. cbn. eauto.
  - destruct H as [<-|[]]. cbn. eauto.
  - apply in_map_iff in H as [x [<- _]]. cbn. eauto.
  - destruct H as [<-|[]]. cbn. eauto.
Qed.

Lemma node_data_nodup : forall nm st, NoDup (map fst (node_data nm st)).
Proof.
  intros nm st. unfold node_data. rewrite !map_app, !map_map. cbn [map fst app].
  assert (Hphi : forall (C : nat -> dname), (forall i j, C i = C j -> i = j) -> forall l : list (arr xr),
            NoDup (map (fun x : nat * arr xr => PData nm (C (fst x))) (enumerate l))).
  { intros C HC l. rewrite <- (map_map fst (fun i => PData nm (C i))), enumerate_fst.
    apply Injective_map_NoDup; [|apply seq_NoDup]. intros i j E. apply HC. congruence. }
  apply NoDup_app2.
  - apply Hphi. congruence.
  - constructor.
    { cbn. intros [H|H]; [discriminate|]. apply in_app_iff in H as [H|[H|[]]]; [|discriminate].
      apply in_map_iff in H as [x [H _]]. discriminate. }
    constructor.
    { intros H. apply in_app_iff in H as [H|[H|[]]]; [|discriminate].
      apply in_map_iff in H as [x [H _]]. discriminate. }
    apply NoDup_app2.
    + apply Hphi. congruence.
    + constructor; [intros []|constructor].
    + intros p Hp [<-|[]]. apply in_map_iff in Hp as [x [Hp _]]. discriminate.
  - intros p Hp Hq. apply in_map_iff in Hp as [x [<- _]].
    destruct Hq as [Hq|[Hq|Hq]]; try discriminate.
    apply in_app_iff in Hq as [Hq|[Hq|[]]]; try discriminate.
    apply in_map_iff in Hq as [y [Hq _]]. discriminate.
Qed.

Lemma node_part_paths : forall w n p, In p (map fst (node_part w n)) ->
  p = PNode (name_of n) \/ exists d, p = PData (name_of n) d.
Proof.
  intros w n p H. unfold node_part in H. destruct (stochastic n); [|destruct H].
  cbn in H. destruct H as [<-|H]; [now left|]. right. now apply node_data_paths in H.
Qed.
Lemma node_part_nodup : forall w n, NoDup (map fst (node_part w n)).
Proof.
  intros w n. unfold node_part. destruct (stochastic n); [|constructor].
  cbn. constructor; [|apply node_data_nodup]. intros H. apply node_data_paths in H as [d H]. discriminate.
Qed.
Lemma parts_paths : forall w ns p, In p (map fst (flat_map (node_part w) ns)) ->
  exists n, In n ns /\ (p = PNode (name_of n) \/ exists d, p = PData (name_of n) d).
Proof.
  intros w ns p H. apply in_map_iff in H as [x [<- H]]. apply in_flat_map in H as [n [Hn H]].
  exists n. split; [assumption|]. apply (node_part_paths w). now apply in_map.
Qed.
Lemma parts_nodup : forall w ns, NoDup (map name_of ns) ->
  NoDup (map fst (flat_map (node_part w) ns)).
Proof.
  induction ns as [|n ns IH]; intros H; cbn; [constructor|]. inversion H as [|? ? Ha Hnd E]; subst.
  rewrite map_app. apply NoDup_app2; [apply node_part_nodup|now apply IH|].
  intros p Hp Hq. apply node_part_paths in Hp. apply parts_paths in Hq as (m & Hm & Hq).
  apply Ha. replace (name_of n) with (name_of m); [now apply in_map|].
  destruct Hp as [->|[d ->]], Hq as [Hq|[d' Hq]]; congruence.
Qed.
Lemma terms_paths : forall s ns p, In p (map fst (flat_map (term_part s) ns)) ->
  exists n, In n ns /\ p = PBound (name_of n).
Proof.
  intros s ns p H. apply in_map_iff in H as [x [<- H]]. apply in_flat_map in H as [n [Hn H]].
  exists n. split; [assumption|]. unfold term_part in H. destruct (term_of s n); [|destruct H].
  destruct H as [<-|[]]. reflexivity.
Qed.
Lemma terms_nodup : forall s ns, NoDup (map name_of ns) ->
  NoDup (map fst (flat_map (term_part s) ns)).
Proof.
  induction ns as [|n ns IH]; intros H; cbn; [constructor|]. inversion H as [|? ? Ha Hnd E]; subst.
  rewrite map_app. apply NoDup_app2; [|now apply IH|].
  - unfold term_part. destruct (term_of s n); cbn; repeat constructor. intros [].
  - intros p Hp Hq. apply terms_paths in Hq as (m & Hm & ->).
    unfold term_part in Hp. destruct (term_of s n); [|destruct Hp].
    destruct Hp as [Hp|[]]. cbn in Hp. injection Hp as Hp. apply Ha. rewrite Hp. now apply in_map.
Qed.

Definition user_keys (s : vb) : list string :=
  match v_user_data s with Some u => map fst u | None => [] end.

Lemma file_of_nodup : forall s ns, NoDup (map name_of ns) -> NoDup (user_keys s) ->
  NoDup (map fst (file_of s ns)).
Proof.
  intros s ns Hn Hu. unfold file_of. rewrite !map_app. cbn [map fst app].
  assert (HU : NoDup (map fst (match v_user_data s with
     | Some u => [(PUserGroup, VGroup)] ++ map (fun kv => (PUser (fst kv), VUser (snd kv))) u
     | None => [] end)) /\
     forall p, In p (map fst (match v_user_data s with
     | Some u => [(PUserGroup, VGroup)] ++ map (fun kv => (PUser (fst kv), VUser (snd kv))) u
     | None => [] end)) -> p = PUserGroup \/ exists k, p = PUser k).
  { unfold user_keys in Hu. destruct (v_user_data s) as [u|]; cbn.
    - rewrite map_map. cbn. split.
      + constructor.
        * intros H. apply in_map_iff in H as [x [H _]]. discriminate.
        * rewrite <- (map_map fst PUser). apply Injective_map_NoDup; [|assumption]. intros a b E. congruence.
      + intros p [<-|H]; [now left|]. apply in_map_iff in H as [x [<- _]]. eauto.
    - split; [constructor|intros p []]. }
  destruct HU as [HU1 HU2]. set (U := map fst _) in HU1, HU2 |- *. clearbody U.
  set (T := map fst (flat_map (term_part s) ns)).
  assert (HT1 : NoDup T) by (now apply terms_nodup).
  assert (HT2 : forall p, In p T -> exists k, p = PBound k).
  { intros p H. apply terms_paths in H as (n & _ & ->). eauto. }
  clearbody T.
  set (P := map fst (flat_map (node_part (v_world s)) ns)).
  assert (HP1 : NoDup P) by (now apply parts_nodup).
  assert (HP2 : forall p, In p P -> (exists k, p = PNode k) \/ exists k d, p = PData k d).
  { intros p H. apply parts_paths in H as (n & _ & [->|[d ->]]); eauto. }
  clearbody P.
  assert (HC1 : NoDup (map fst (match v_callback_output s with Some c => [(PCallback, VCb c)] | None => [] end))).
  { destruct (v_callback_output s); cbn; repeat constructor. intros []. }
  assert (HC2 : forall p, In p (map fst (match v_callback_output s with Some c => [(PCallback, VCb c)] | None => [] end)) -> p = PCallback).
  { intros p. destruct (v_callback_output s); cbn; [intros [<-|[]]; reflexivity|intros []]. }
  set (C := map fst (match v_callback_output s with Some c => _ | None => _ end)) in *. clearbody C.
  assert (HTU : NoDup (T ++ U)).
  { apply NoDup_app2; auto. intros p H1 H2. apply HT2 in H1 as [k ->].
    apply HU2 in H2 as [H2|[k' H2]]; discriminate. }
  assert (HTUe : forall p, In p (T ++ U) -> (exists k, p = PBound k) \/ p = PUserGroup \/ exists k, p = PUser k).
  { intros p H. apply in_app_iff in H as [H|H]; auto. }
  set (TU := T ++ U) in *. clearbody TU.
  assert (HB : NoDup (PBounds :: TU)).
  { constructor; [|assumption]. intros H. apply HTUe in H as [[k H]|[H|[k H]]]; discriminate. }
  assert (HCB : NoDup (C ++ PBounds :: TU)).
  { apply NoDup_app2; auto. intros p H1 [<-|H2]; apply HC2 in H1; subst; try discriminate.
    apply HTUe in H2 as [[k H]|[H|[k H]]]; discriminate. }
  assert (HCBe : forall p, In p (C ++ PBounds :: TU) -> p = PCallback \/ p = PBounds \/ (exists k, p = PBound k) \/ p = PUserGroup \/ exists k, p = PUser k).
  { intros p H. apply in_app_iff in H as [H|[<-|H]]; auto. }
  set (R := C ++ PBounds :: TU) in *. clearbody R.
  assert (H4 : NoDup (PL :: PCputime :: PIter :: PConverged :: R)).
  { repeat constructor; auto; cbn; intros H;
      repeat (destruct H as [H|H]; [discriminate|]);
      apply HCBe in H as [H|[H|[[k H]|[H|[k H]]]]]; discriminate. }
  assert (HP : NoDup (P ++ PL :: PCputime :: PIter :: PConverged :: R)).
  { apply NoDup_app2; auto. intros p H1 H2.
    assert (Hq : p = PL \/ p = PCputime \/ p = PIter \/ p = PConverged \/ In p R) by (cbn in H2; intuition congruence).
    destruct (HP2 p H1) as [[k ->]|[k [d ->]]];
      destruct Hq as [Hq|[Hq|[Hq|[Hq|Hq]]]]; try discriminate;
      apply HCBe in Hq as [H|[H|[[k' H]|[H|[k' H]]]]]; discriminate. }
  constructor; [|exact HP].
  intros H. apply in_app_iff in H as [H|H].
  - destruct (HP2 _ H) as [[k E]|[k [d E]]]; discriminate.
  - repeat (destruct H as [H|H]; [discriminate|]).
    apply HCBe in H as [H|[H|[[k' H]|[H|[k' H]]]]]; discriminate.
Qed.

(** ** Saving writes exactly that file *)

Definition fname_of (s : vb) (fn : string) : string :=
  if string_dec fn "" then v_autosave_filename s else fn.

(** [save] either fails before opening the file (killed at once), or truncates
    it and writes a prefix of the new content. *)
Lemma save_crash : forall s fn,
  fname_of s fn <> ""%string -> wf s ->
  NoDup (map name_of (v_model s)) -> (forall n, In n (v_model s) -> name_of n <> ""%string) ->
  NoDup (user_keys s) ->
  exists s' r, save [] fn s = (s', r) /\ same_disk_only s s' /\
    (forall g, g <> fname_of s fn -> files (v_disk s') g = files (v_disk s) g) /\
    (crash (v_disk s) = Some 0 /\ r = Err Killed /\ s' = s \/
     exists k, files (v_disk s') (fname_of s fn) = Some (firstn k (file_of s (v_model s))) /\
       (r = Ok tt /\ k = length (file_of s (v_model s)) /\
          (crash (v_disk s) = None -> crash (v_disk s') = None) \/
        r = Err Killed /\ k < length (file_of s (v_model s)) /\ crash (v_disk s) <> None)).
Proof.
  intros s fn Hfn Hwf Hnd Hne Hu.
  unfold Engine.save. unfold sbind at 1, gets at 1. unfold sbind at 1, gets at 1.
  unfold sbind at 1.
  assert (Hf : (if string_dec fn "" then if string_dec (v_autosave_filename s) "" then raise PyException
                else ret (v_autosave_filename s) else ret fn) s = (s, Ok (fname_of s fn))).
  { unfold fname_of in *. destruct (string_dec fn ""); [|reflexivity].
    destruct (string_dec (v_autosave_filename s) ""); [contradiction|reflexivity]. }
  rewrite Hf. set (fname := fname_of s fn) in *. clearbody fname.
  assert (Hc0 : crash (v_disk s) = Some 0 \/ crash (v_disk s) <> Some 0).
  { destruct (crash (v_disk s)) as [[|c]|]; auto; right; discriminate. }
  destruct Hc0 as [Hcr|Hcr].
  { exists s, (Err Killed). split.
    { unfold sbind at 1, h5_open_w, sbind at 1, file_op. rewrite Hcr. reflexivity. }
    split; [apply sdo_refl|]. auto. }
  set (c' := match crash (v_disk s) with Some (S n) => Some n | x => x end).
  set (s1 := set_disk s (Disk (put_file (files (v_disk s)) fname []) c' (opened (v_disk s) ++ [fname]))).
  unfold sbind at 1.
  assert (Ho : h5_open_w fname s = (s1, Ok tt)).
  { unfold h5_open_w, sbind, file_op, s1, c'. destruct (crash (v_disk s)) as [[|c]|]; [contradiction| |];
      destruct s; reflexivity. }
  rewrite Ho.
  assert (Hs1 : same_disk_only s s1) by apply sdo_set.
  assert (Hfile1 : files (v_disk s1) fname = Some []).
  { cbn; unfold put_file; destruct (string_dec fname fname); [reflexivity|contradiction]. }
  assert (Hother : forall g, g <> fname -> files (v_disk s1) g = files (v_disk s) g).
  { intros g Hg; cbn; unfold put_file; destruct (string_dec g fname); [contradiction|reflexivity]. }
  match goal with |- exists s' r, ?m s1 = _ /\ _ => assert (Hwr : wr s fname m (file_of s (v_model s))) end.
  { unfold file_of. apply wr_bind; [apply wr_create|]. apply wr_bind.
    { apply wr_sfor. intros n Hn. destruct (string_dec (name_of n) "") as [E|E]; [exfalso; now apply (Hne n)|].
      unfold node_part. destruct (stochastic n); [|apply wr_ret].
      apply wr_bind; [apply wr_create|apply wr_save_node]. }
    apply wr_gets. intros s2 Hs2.
    assert (Ef : v_L s2 = v_L s /\ v_cputime s2 = v_cputime s /\ v_iter s2 = v_iter s /\
       v_converged s2 = v_converged s /\ v_callback_output s2 = v_callback_output s /\
       v_l s2 = v_l s /\ v_user_data s2 = v_user_data s).
    { rewrite Hs2. destruct s; cbn; repeat split. }
    destruct Ef as (-> & -> & -> & -> & -> & El & ->).
    do 4 (apply wr_bind; [apply wr_create|]).
    apply wr_bind. { destruct (v_callback_output s); [apply wr_create|apply wr_ret]. }
    apply wr_bind; [apply wr_create|].
    apply wr_bind.
    { apply wr_sfor. intros n Hn. unfold term_part.
      assert (Et : term_of s2 n = term_of s n) by (unfold term_of; now rewrite El).
      rewrite Et. destruct (term_of s n) as [t|e] eqn:Eterm.
      - intros st f H1 H3 H4. unfold sbind, lift. now apply (wr_create s fname).
      - exfalso. unfold term_of in Eterm. destruct (find _ _) eqn:Efind; [discriminate|].
        destruct Hwf as (_ & _ & Hk & _). rewrite <- Hk in Hn. apply in_map_iff in Hn as [p [Ep Hp]].
        apply (find_none _ _ Efind) in Hp. rewrite Ep, Nat.eqb_refl in Hp. discriminate. }
    destruct (v_user_data s); [|apply wr_ret].
    apply wr_bind; [apply wr_create|]. apply wr_sfor_map. intros; apply wr_create. }
  destruct (Hwr s1 [] Hs1 Hfile1) as (s' & r & k & E1 & E2 & E3 & E4 & E5); [now apply file_of_nodup|].
  assert (Hcc : crash (v_disk s1) = None <-> crash (v_disk s) = None).
  { cbn. unfold c'. destruct (crash (v_disk s)) as [[|c]|]; [contradiction| |]; split; try discriminate; auto. }
  exists s', r; split; [exact E1|]; split; [assumption|].
  split; [intros g Hg; now rewrite E4, Hother|].
  right; exists k; split; [assumption|].
  destruct E5 as [(-> & -> & E5)|(-> & E5 & E6)]; [left|right].
  - repeat split; auto. intros H. apply E5. now apply Hcc.
  - repeat split; auto. intros H. apply E6. now apply Hcc.
Qed.

Lemma save_ok : forall s fn,
  crash (v_disk s) = None -> fname_of s fn <> ""%string -> wf s ->
  NoDup (map name_of (v_model s)) -> (forall n, In n (v_model s) -> name_of n <> ""%string) ->
  NoDup (user_keys s) ->
  exists s', save [] fn s = (s', Ok tt) /\ same_disk_only s s' /\ crash (v_disk s') = None /\
    files (v_disk s') (fname_of s fn) = Some (file_of s (v_model s)) /\
    (forall g, g <> fname_of s fn -> files (v_disk s') g = files (v_disk s) g).
Proof.
  intros s fn Hcr Hfn Hwf Hnd Hne Hu.
  destruct (save_crash s fn Hfn Hwf Hnd Hne Hu) as (s' & r & E1 & E2 & E3 & E4).
  rewrite Hcr in E4. destruct E4 as [(E4 & _)|(k & E4 & [(-> & -> & E5)|(_ & _ & E5)])]; [discriminate| |contradiction].
  rewrite firstn_all in E4. exists s'. repeat split; auto.
Qed.

(** ** Loading *)

(** [update_mask] changes masks only. *)
Definition but_mask (a b : nstate) : Prop := same_state a b /\ n_annealing a = n_annealing b.
Definition masks_only : Prop := forall n w j, but_mask (update_mask n w j) (w j).

Lemma ss_refl : forall a, same_state a a.
Proof. intros a. repeat split. Qed.
Lemma ss_trans : forall a b c, same_state a b -> same_state b c -> same_state a c.
Proof. unfold same_state. intros a b c H1 H2. intuition congruence. Qed.
Lemma bm_refl : forall a, but_mask a a.
Proof. intros a. split; [apply ss_refl|reflexivity]. Qed.
Lemma bm_trans : forall a b c, but_mask a b -> but_mask b c -> but_mask a c.
Proof. intros a b c [H1 H2] [H3 H4]. split; [eapply ss_trans; eassumption|congruence]. Qed.

Lemma set_at_length : forall A (l : list A) i x, length (set_at l i x) = length l.
Proof.
  intros A l i x. unfold set_at. destruct (le_lt_dec (length l) i) as [H|H].
  - now rewrite set_nth_err.
  - destruct (set_nth_ok _ l i x H) as (l' & -> & Hl & _). exact Hl.
Qed.
Lemma set_at_nth : forall A (l : list A) i x j, i < length l ->
  nth_error (set_at l i x) j = if j =? i then Some x else nth_error l j.
Proof.
  intros A l i x j H. unfold set_at. destruct (set_nth_ok _ l i x H) as (l' & -> & Hl & _ & H4 & H5 & _).
  destruct (Nat.eqb_spec j i) as [->|Hne]; auto.
Qed.

(** Reading a list of arrays element by element. *)
Lemma load_list : forall (n : nat) (get : nstate -> list (arr xr)) (put : list (arr xr) -> nstate -> nstate)
    (rd : nat -> res (arr xr)) (src : list (arr xr)),
  (forall l st, get (put l st) = l) -> (forall l l' st, put l (put l' st) = put l st) ->
  (forall st, put (get st) st = st) ->
  (forall i a, nth_error src i = Some a -> rd i = Ok a) ->
  forall s, length (get (v_world s n)) = length src ->
  exists s', sfor (seq 0 (length src)) (fun i =>
      sbind (lift (rd i)) (fun a => mod_node n (fun st => put (set_at (get st) i a) st))) s = (s', Ok tt) /\
    s' = set_world s (v_world s') /\ v_world s' n = put src (v_world s n) /\
    (forall j, j <> n -> v_world s' j = v_world s j).
Proof.
  intros n get put rd src Hgp Hpp Hpg Hrd s Hlen.
  assert (G : forall k a s, a + k = length src -> length (get (v_world s n)) = length src ->
    (forall j, j < a -> nth_error (get (v_world s n)) j = nth_error src j) ->
    exists s', sfor (seq a k) (fun i =>
      sbind (lift (rd i)) (fun a => mod_node n (fun st => put (set_at (get st) i a) st))) s = (s', Ok tt) /\
    s' = set_world s (v_world s') /\ v_world s' n = put src (v_world s n) /\
    (forall j, j <> n -> v_world s' j = v_world s j)).
  { clear s Hlen. induction k as [|k IH]; intros a s Ha Hl Hd; cbn [seq sfor].
    - exists s. split; [reflexivity|]. split; [destruct s; reflexivity|]. split; [|auto].
      rewrite <- (Hpg (v_world s n)) at 1. f_equal. apply nth_error_ext'; intros n0.
      destruct (le_lt_dec a n0) as [H|H]; [|now apply Hd].
      rewrite !(proj2 (nth_error_None _ _)); [reflexivity|lia|lia].
    - destruct (nth_error src a) as [x|] eqn:Ex.
      2:{ apply nth_error_None in Ex. lia. }
      unfold sbind at 1. unfold sbind at 1, lift at 1. rewrite (Hrd _ _ Ex).
      set (s1 := set_world s (set_node (v_world s) n (put (set_at (get (v_world s n)) a x) (v_world s n)))).
      change (mod_node n (fun st => put (set_at (get st) a x) st) s) with (s1, @Ok unit tt).
      cbv beta iota.
      assert (Hw1 : v_world s1 n = put (set_at (get (v_world s n)) a x) (v_world s n)).
      { cbn. unfold set_node. now rewrite Nat.eqb_refl. }
      destruct (IH (S a) s1) as (s' & E1 & E2 & E3 & E4).
      + lia.
      + rewrite Hw1, Hgp, set_at_length. exact Hl.
      + intros j Hj. rewrite Hw1, Hgp, set_at_nth by lia.
        destruct (Nat.eqb_spec j a) as [->|Hne]; [now symmetry|]. apply Hd. lia.
      + exists s'. split; [exact E1|]. split; [rewrite E2; destruct s; reflexivity|]. split.
        * rewrite E3, Hw1. apply Hpp.
        * intros j Hj. rewrite E4 by assumption. cbn. unfold set_node.
          destruct (Nat.eqb_spec j n); [contradiction|reflexivity]. }
  destruct (G (length src) 0 s eq_refl Hlen) as (s' & H); [lia|]. exists s'. exact H.
Qed.
End L.
