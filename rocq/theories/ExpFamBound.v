(** The lower bound contribution of a node as a sum over its plates. *)
From Coq Require Import List Arith ZArith Lia Bool Reals Lra FunctionalExtensionality.
From Verif Require Import Base Shapes SpecShapes ShapesLemmas NumPy MiscArray TensorLemmas
  EinsumLemmas SumMultiplyLemmas SpecArray PlateSumLemmas PlateSum2Lemmas MessageLemmas
  ShapeOpsLemmas DiagLemmas ExpFam SpecExpFam ExpFamLemmas.
Import ListNotations.
Open Scope nat_scope.

Lemma add_leading_ok : forall A (x : arr A) n,
  ndim (add_leading_axes x n) = n + ndim x /\
  (forall k, ax (ash (add_leading_axes x n)) k = ax (ash x) k) /\
  (forall e, bget (add_leading_axes x n) e = bget x e).
Proof.
  intros A x. induction n as [|n (IH1 & IH2 & IH3)]; [auto|].
  change (add_leading_axes x (S n)) with (expand_at (add_leading_axes x n) (ndim (add_leading_axes x n))).
  set (y := add_leading_axes x n) in *. split; [|split].
  - rewrite ndim_expand_at. lia.
  - intros k. rewrite ash_expand_at by lia. rewrite <- IH2.
    destruct (Nat.ltb_spec k (ndim y)) as [L|L]; [reflexivity|].
    destruct (Nat.eqb_spec k (ndim y)); rewrite (ax_overflow (ash y) k) by exact L; [reflexivity|].
    apply ax_overflow. unfold ndim in *. lia.
  - intros e. rewrite bget_expand_at by lia. rewrite <- IH3. apply bget_ext. intros k Hk _.
    destruct (Nat.ltb_spec k (ndim y)); [reflexivity|unfold ndim in *; lia].
Qed.

Lemma itersum_join_low : forall l nd (F : env -> R) p v, (forall k, In k (map fst l) -> k < nd) ->
  itersum l (fun v => F (join nd p v)) v = itersum l F (join nd p v).
Proof.
  induction l as [|[k d] l IH]; intros nd F p v H; [reflexivity|]. rewrite !itersum_cons.
  unfold sumax. apply rsum_ext. intros x _. rewrite IH by (intros j Hj; apply H; now right).
  f_equal. apply functional_extensionality. intros j. unfold join, upd.
  assert (k < nd) by (apply H; now left).
  destruct (Nat.ltb_spec j nd), (Nat.eqb_spec j k); try reflexivity; lia.
Qed.

Lemma filter_low : forall nd n, nd <= n -> filter (fun k => memb k (seq 0 nd)) (seq 0 n) = seq 0 nd.
Proof.
  intros nd n H. replace n with (nd + (n - nd)) by lia. rewrite seq_app, filter_app.
  rewrite filter_true, filter_false; [apply app_nil_r| |].
  - intros x Hx. apply in_seq in Hx. apply memb_false. intros Hc. apply in_seq in Hc. lia.
  - intros x Hx. now apply memb_In.
Qed.
Lemma kept_low : forall nd n, nd <= n -> kept_axes n (seq 0 nd) = seq nd (n - nd).
Proof.
  intros nd n H. unfold kept_axes. replace (seq 0 n) with (seq 0 nd ++ seq nd (n - nd)).
  2:{ rewrite <- seq_app. f_equal. lia. }
  rewrite filter_app. rewrite filter_false, filter_true; [reflexivity| |].
  - intros x Hx. apply in_seq in Hx. apply negb_true_iff, memb_false. intros Hc. apply in_seq in Hc. lia.
  - intros x Hx. apply negb_false_iff. now apply memb_In.
Qed.
Lemma index_of_seq : forall n m k, index_of k (seq m n) = if (m <=? k) && (k <? m + n) then Some (k - m) else None.
Proof.
  induction n as [|n IH]; intros m k; cbn [seq index_of].
  - destruct (Nat.leb_spec m k); cbn [andb]; [|reflexivity]. destruct (Nat.ltb_spec k (m + 0)); [lia|reflexivity].
  - destruct (Nat.eqb_spec m k) as [->|N].
    + rewrite Nat.leb_refl, Nat.sub_diag. destruct (Nat.ltb_spec k (k + S n)); [reflexivity|lia].
    + rewrite IH. destruct (Nat.leb_spec (S m) k), (Nat.leb_spec m k); cbn [andb]; try lia; try reflexivity.
      destruct (Nat.ltb_spec k (S m + n)), (Nat.ltb_spec k (m + S n)); try lia; cbn [option_map]; [|reflexivity].
      f_equal. lia.
Qed.

Lemma dep_indep_ext : forall n (G : env -> R) e e', dep n G ->
  (forall k, k < n -> indep k G \/ e k = e' k) -> G e = G e'.
Proof.
  intros n G e e' HD He.
  assert (Hst : forall m, m <= n -> G e = G (fun k => if k <? m then e' k else e k)).
  { induction m as [|m IH]; intros Hm; [reflexivity|]. rewrite IH by lia.
    replace (fun k => if k <? S m then e' k else e k)
      with (upd (fun k => if k <? m then e' k else e k) m (e' m)).
    2:{ apply functional_extensionality. intros j. unfold upd.
        destruct (Nat.eqb_spec j m) as [->|N].
        - destruct (Nat.ltb_spec m (S m)); [reflexivity|lia].
        - destruct (Nat.ltb_spec j m), (Nat.ltb_spec j (S m)); try reflexivity; lia. }
    destruct (He m) as [H|H]; [lia| |].
    - symmetry. apply H.
    - f_equal. apply functional_extensionality. intros j. unfold upd.
      destruct (Nat.eqb_spec j m) as [->|N]; [|reflexivity].
      destruct (Nat.ltb_spec m m); [lia|exact H]. }
  rewrite (Hst n (le_n n)). apply HD. intros k Hk. destruct (Nat.ltb_spec k n); [reflexivity|lia].
Qed.

(** np.sum over the [nd] last axes. *)
Lemma np_sum_trailing : forall (z : arr R) d, length d <= ndim z ->
  (forall k, k < length d -> ax (ash z) k = ax d k) ->
  let y := np_sum z (seq 0 (length d)) in
  ndim y = ndim z - length d /\ (forall k, ax (ash y) k = ax (ash z) (k + length d)) /\
  (forall p, bget y p = total d (fun v => bget z (join (length d) p v))).
Proof.
  intros z d Hl Hd y. set (nd := length d) in *.
  assert (Hn : ndim (np_sum_keep z (seq 0 nd)) = ndim z).
  { unfold ndim at 1, np_sum_keep. cbn [ash]. apply length_mkshape. }
  assert (Hsh : forall k, ax (ash y) k = ax (ash z) (k + nd)).
  { intros k. unfold y, np_sum, drop_axes. rewrite Hn, kept_low by exact Hl. cbn [ash].
    rewrite ax_mkshape, seq_length. destruct (Nat.ltb_spec k (ndim z - nd)) as [L|L].
    - rewrite seq_nth by exact L. rewrite ash_sum_keep_ax.
      destruct (memb (nd + k) (seq 0 nd)) eqn:M; [apply memb_In, in_seq in M; lia|]. f_equal. lia.
    - symmetry. apply ax_overflow. unfold ndim in *. lia. }
  split; [|split; [exact Hsh|]].
  - unfold ndim at 1, y, np_sum, drop_axes. cbn [ash]. rewrite length_mkshape, Hn, kept_low by exact Hl.
    apply seq_length.
  - intros p. unfold bget at 1. unfold y at 1, np_sum, drop_axes. cbn [aget].
    rewrite bget_sum_keep. unfold sum_axes_list. fold (ndim z).
    rewrite filter_low by exact Hl. rewrite total_iter, Hn, kept_low by exact Hl. fold nd.
    rewrite itersum_join_low.
    2:{ intros k Hk. rewrite map_map_fst_pair in Hk. apply in_seq in Hk. lia. }
    replace (map (fun k => (k, ax d k)) (seq 0 nd)) with (map (fun k => (k, ax (ash z) k)) (seq 0 nd)).
    2:{ apply map_ext_in. intros k Hk. apply in_seq in Hk. rewrite Hd by lia. reflexivity. }
    apply dep_indep_ext with (n := ndim z); [apply itersum_dep, bget_dep|].
    intros k Hk. destruct (Nat.ltb_spec k nd) as [L|L].
    { left. apply itersum_indep_in. rewrite map_map_fst_pair. apply in_seq. lia. }
    destruct (Nat.eq_dec (ax (ash z) k) 1) as [E1|E1].
    { left. apply itersum_indep. now apply bget_indep. }
    right. unfold assign. rewrite index_of_seq. destruct (Nat.leb_spec nd k); [|lia].
    destruct (Nat.ltb_spec k (nd + (ndim z - nd))); [|lia]. cbn [andb].
    unfold join. destruct (Nat.ltb_spec k nd); [lia|]. unfold clip. fold y. fold y in Hsh.
    change (ax _ (k - nd)) with (ax (ash y) (k - nd)). rewrite Hsh. replace (k - nd + nd) with k by lia.
    destruct (Nat.eqb_spec (ax (ash z) k) 1); [contradiction|reflexivity].
Qed.

Lemma bget_scaleR : forall c (y : arr R) e, bget (np_scaleR c y) e = (c * bget y e)%R.
Proof. intros c y e. unfold np_scaleR, np_map, bget. cbn. now rewrite clip_clip. Qed.
Lemma bget_map : forall A B (f : A -> B) (y : arr A) e, bget (np_map f y) e = f (bget y e).
Proof. intros A B f y e. unfold np_map, bget. cbn. now rewrite clip_clip. Qed.

Lemma map2_exists : forall A B C (f : A -> B -> C) a b S,
  broadcasts_to (ash a) S -> broadcasts_to (ash b) S ->
  exists y, np_map2 f a b = Ok y /\ numpy_broadcast [ash a; ash b] (ash y) /\
    broadcasts_to (ash y) S /\ forall e, bget y e = f (bget a e) (bget b e).
Proof.
  intros A B C f a b S Ha Hb.
  destruct (broadcast_exists_of_upper [ash a; ash b] S) as [J HJ].
  { intros x [<-|[<-|[]]]; assumption. }
  destruct (np_map2_total A B C f a b J HJ) as (y & Hy & Es). exists y. split; [exact Hy|].
  destruct (np_map2_ok _ _ _ f a b y Hy) as [H1 H2]. split; [exact H1|]. split; [|exact H2].
  apply (broadcast_least _ _ _ H1). intros x [<-|[<-|[]]]; assumption.
Qed.

Lemma bound_term_ok : forall n T d phi_p phi_q u,
  broadcasts_to (ash (n_obs n)) (n_plates n) ->
  broadcasts_to (ash phi_p) (n_plates n ++ d) -> broadcasts_to (ash phi_q) (n_plates n ++ d) ->
  moment_array (n_plates n) d u ->
  exists y, bound_term n T d phi_p phi_q u = Ok y /\ broadcasts_to (ash y) (n_plates n) /\
    forall p, bget y p = total d (fun v => ((bget phi_p (join (length d) p v) -
        (if bget (n_obs n) p then 0 else T * bget phi_q (join (length d) p v)))
        * bget u (join (length d) p v))%R).
Proof.
  intros n T d phi_p phi_q u Ho Hp Hq (Hun & Hub & Hud). unfold bound_term.
  set (lat := np_not (n_obs n)).
  destruct (add_leading_ok _ lat (length (n_plates n) - ndim lat)) as (L1 & L2 & L3).
  set (l1 := add_leading_axes lat (length (n_plates n) - ndim lat)) in *.
  assert (B1 : broadcasts_to (ash l1) (n_plates n)).
  { destruct Ho as [O1 O2]. split.
    - change (length (ash l1)) with (ndim l1). rewrite L1. unfold ndim, lat. cbn. lia.
    - intros k. rewrite L2. apply O2. }
  pose proof (trailing_broadcasts _ l1 _ d B1) as B2.
  destruct (add_trailing_ok _ l1 (length d)) as (_ & _ & G2).
  set (l2 := add_trailing_axes l1 (length d)) in *.
  destruct (map2_exists _ _ _ (fun (b : bool) v => if b then v else 0%R) l2 phi_q _ B2 Hq) as (q1 & E1 & _ & Bq1 & G3).
  unfold np_where0. rewrite E1. cbn [bind].
  destruct (map2_exists _ _ _ Rminus phi_p (np_scaleR T q1) (n_plates n ++ d) Hp Bq1) as (d1 & E2 & _ & Bd1 & G4).
  rewrite E2. cbn [bind].
  destruct (map2_exists _ _ _ (fun u d => if Req_EM_T u 0 then 0%R else d) u d1 (n_plates n ++ d) Hub Bd1)
    as (d2 & E3 & N3 & Bd2 & G5).
  rewrite E3. cbn [bind]. unfold np_multiply.
  destruct (map2_exists _ _ _ Rmult d2 u (n_plates n ++ d) Bd2 Hub) as (z & E4 & N4 & Bz & G6).
  rewrite E4. cbn [bind]. eexists. split; [reflexivity|].
  assert (Lz : length (ash z) = length (n_plates n) + length d).
  { destruct Bz as [Bz _]. rewrite app_length in Bz.
    destruct (broadcast_upper _ _ _ N4 (or_intror (or_introl eq_refl))) as [Bu _]. lia. }
  assert (Az : forall k, k < length d -> ax (ash z) k = ax d k).
  { intros k Hk. destruct (broadcast_upper _ _ _ N4 (or_intror (or_introl eq_refl))) as [_ Bu].
    specialize (Bu k). rewrite (Hud k Hk) in Bu. destruct Bz as [_ Bz]. specialize (Bz k).
    rewrite ax_app in Bz. destruct (Nat.ltb_spec k (length d)); [|lia]. destruct Bu, Bz; congruence. }
  destruct (np_sum_trailing z d) as (S1 & S2 & S3).
  { unfold ndim. lia. }
  { exact Az. }
  split.
  - split.
    + change (length (ash ?a)) with (ndim a). rewrite S1. unfold ndim. lia.
    + intros k. rewrite S2. destruct Bz as [_ Bz]. specialize (Bz (k + length d)). rewrite ax_app in Bz.
      destruct (Nat.ltb_spec (k + length d) (length d)); [lia|]. now rewrite Nat.add_sub in Bz.
  - intros p. rewrite S3. f_equal. apply functional_extensionality. intros v.
    rewrite G6, G5, G4, bget_scaleR, G3, G2, L3. unfold lat. rewrite bget_not.
    replace (fun j => join (length d) p v (j + length d)) with p.
    2:{ apply functional_extensionality. intros j. unfold join.
        destruct (Nat.ltb_spec (j + length d) (length d)); [lia|]. f_equal. lia. }
    destruct (Req_EM_T (bget u (join (length d) p v)) 0) as [->|_]; [ring|].
    destruct (bget (n_obs n) p); cbn [negb]; ring.
Qed.

(** The shapes of everything the bound is computed from. *)
Record bound_shaped (n : efnode) (phi_p : list (arr R)) (cgf_p : arr R) : Prop := BS {
  bs_ws : well_shaped n;
  bs_phi : Forall2 (fun d a => broadcasts_to (ash a) (n_plates n ++ d)) (n_dims n) (n_phi n);
  bs_prior : Forall2 (fun d a => broadcasts_to (ash a) (n_plates n ++ d)) (n_dims n) phi_p;
  bs_cgf : broadcasts_to (ash cgf_p) (n_plates n);
  bs_g : broadcasts_to (ash (n_g n)) (n_plates n);
  bs_f : broadcasts_to (ash (n_f n)) (n_plates n);
  bs_mask : broadcasts_to (ash (n_mask n)) (n_plates n) }.

Lemma bound_terms_ok : forall n T dims pp pq us L,
  broadcasts_to (ash (n_obs n)) (n_plates n) ->
  Forall2 (fun d a => broadcasts_to (ash a) (n_plates n ++ d)) dims pp ->
  Forall2 (fun d a => broadcasts_to (ash a) (n_plates n ++ d)) dims pq ->
  Forall2 (moment_array (n_plates n)) dims us -> broadcasts_to (ash L) (n_plates n) ->
  exists y, bound_terms n T dims pp pq us L = Ok y /\ broadcasts_to (ash y) (n_plates n) /\
    forall p, bget y p = (bget L p + sum_terms (fun d a b u =>
       total d (fun v => (bget a (join (length d) p v) -
          (if bget (n_obs n) p then 0 else T * bget b (join (length d) p v)))
          * bget u (join (length d) p v))) dims pp pq us)%R.
Proof.
  intros n T dims. induction dims as [|d dims IH]; intros pp pq us L Ho Hp Hq Hu HL.
  - inversion Hp; subst. inversion Hq; subst. inversion Hu; subst. exists L. cbn.
    split; [reflexivity|]. split; [exact HL|]. intros p. ring.
  - inversion Hp as [|? a ? pp' P1 P2]; subst. inversion Hq as [|? b ? pq' Q1 Q2]; subst.
    inversion Hu as [|? u ? us' U1 U2]; subst. cbn [bound_terms].
    destruct (bound_term_ok n T d a b u Ho P1 Q1 U1) as (z & -> & Bz & Gz). cbn [bind].
    unfold np_add. destruct (map2_exists _ _ _ Rplus L z _ HL Bz) as (L1 & -> & _ & B1 & G1). cbn [bind].
    destruct (IH pp' pq' us' L1 Ho P2 Q2 U2 B1) as (y & -> & By & Gy). exists y. split; [reflexivity|].
    split; [exact By|]. intros p. rewrite Gy, G1, Gz. cbn [sum_terms]. ring.
Qed.

Lemma np_all_spec : forall (a : arr bool), np_all a = true <-> forall e, valid (ash a) e -> bget a e = true.
Proof.
  intros a. unfold np_all. rewrite negb_true_iff. split.
  - intros H e He. destruct (bget a e) eqn:B; [reflexivity|]. exfalso.
    assert (X : iterany (map (fun k => (k, ax (ash a) k)) (seq 0 (ndim a))) (fun e => negb (bget a e)) env0 = true).
    { apply iterany_ex; [rewrite map_map_fst_pair; apply seq_NoDup|]. exists e. split; [now rewrite B|split].
      - intros k d Hk. apply in_map_iff in Hk as (j & E & _). injection E as <- <-. apply He.
      - intros k Hk. rewrite map_map_fst_pair, in_seq in Hk. unfold env0.
        pose proof (He k) as Hek. rewrite ax_overflow in Hek by (unfold ndim in *; lia). lia. }
    congruence.
  - intros H. destruct (iterany _ _ _) eqn:E; [|reflexivity]. exfalso.
    apply iterany_ex in E; [|rewrite map_map_fst_pair; apply seq_NoDup].
    destruct E as (e & E3 & E2 & E1). rewrite H in E3; [discriminate|]. intros k.
    destruct (Nat.ltb_spec k (ndim a)) as [L|L].
    + apply (E2 k (ax (ash a) k)). apply in_map_iff. exists k. split; [reflexivity|]. apply in_seq. lia.
    + rewrite E1; [unfold env0; rewrite ax_overflow by exact L; lia|].
      rewrite map_map_fst_pair, in_seq. lia.
Qed.

Lemma total_sum_total : forall (a : arr R), total_sum a = total (ash a) (bget a).
Proof. intros a. unfold total_sum. now rewrite total_iter. Qed.

Lemma total_ext : forall s F G, (forall e, valid s e -> F e = G e) -> total s F = total s G.
Proof.
  intros s F G H. unfold total. f_equal. apply map_ext_in. intros e He. apply H.
  now apply all_indices_valid.
Qed.

Section Dist.
Context {pm val : Type}.
Variable D : dist pm val.

Lemma lower_bound_ok : forall nan n u_parents phi_p cgf_p,
  d_phi D u_parents = Ok phi_p -> d_cgf D u_parents = Ok cgf_p -> bound_shaped n phi_p cgf_p ->
  lower_bound_contribution D nan n u_parents =
  Ok (lprod (map INR (n_mult n)) *
      total (n_plates n) (fun p => if bget (n_mask n) p then plate_bound n phi_p cgf_p p else 0))%R.
Proof.
  intros nan n up phi_p cgf_p E1 E2 [[Wu Wo] Hq Hp Hc Hg Hf Hm]. unfold lower_bound_contribution.
  rewrite E1, E2. cbn [bind].
  set (z := if np_all (n_obs n) then _ else _).
  assert (Bz : broadcasts_to (ash z) (n_plates n)).
  { unfold z. destruct (np_all (n_obs n)); [apply broadcasts_to_nil|exact Hg]. }
  destruct (np_where (n_obs n) (n_f n) z) as [w|e] eqn:Ew.
  2:{ exfalso. unfold np_where in Ew. rewrite np_bshape_eq in Ew.
      destruct (broadcast_exists_of_upper [ash (n_obs n); ash (n_f n); ash z] (n_plates n)) as [S HS].
      - intros a [<-|[<-|[<-|[]]]]; assumption.
      - rewrite HS in Ew. discriminate. }
  cbn [bind]. apply np_where_ok in Ew as [Nw Gw].
  assert (Bw : broadcasts_to (ash w) (n_plates n)).
  { apply (broadcast_least _ _ _ Nw). intros a [<-|[<-|[<-|[]]]]; assumption. }
  unfold np_add. destruct (map2_exists _ _ _ Rplus cgf_p w _ Hc Bw) as (L1 & -> & _ & B1 & G1). cbn [bind].
  destruct (bound_terms_ok n (1 / n_ann n) (n_dims n) phi_p (n_phi n) (n_u n) L1 Wo Hp Hq Wu B1)
    as (L2 & -> & B2 & G2). cbn [bind]. unfold np_where0.
  destruct (map2_exists _ _ _ (fun (b : bool) v => if b then v else 0%R) (n_mask n) L2 _ Hm B2)
    as (x & -> & Nx & Bx & Gx). cbn [bind].
  destruct (broadcasting_multiplier (n_plates n) [ash L2; ash (n_mask n)]) as [r|e] eqn:Er.
  2:{ exfalso. destruct (broadcasting_multiplier_ok (n_plates n) [ash L2; ash (n_mask n)] (bm_value (n_plates n) [ash L2; ash (n_mask n)])) as [_ X].
      rewrite Er in X. discriminate X. split; [|reflexivity]. intros a [<-|[<-|[]]]; assumption. }
  cbn [bind]. f_equal.
  assert (EX : total (n_plates n) (bget x) = (INR r * total (ash x) (bget x))%R).
  { apply broadcasting_multiplier_ok in Er as [Hr ->].
    assert (Nx' : numpy_broadcast [ash L2; ash (n_mask n)] (ash x)).
    { apply (numpy_broadcast_in_ext [ash (n_mask n); ash L2]); [|exact Nx]. intros a. cbn. tauto. }
    rewrite (bm_value_joint _ _ _ Nx'). apply total_expand; [exact Bx|].
    intros k Hk. now apply bget_indep. }
  rewrite total_sum_total.
  replace (total (n_plates n) _) with (total (n_plates n) (bget x)).
  { rewrite EX. ring. }
  apply total_ext. intros p Hpv. rewrite Gx. destruct (bget (n_mask n) p); [|reflexivity].
  rewrite G2, G1, Gw. unfold plate_bound. f_equal. f_equal.
  unfold z. destruct (np_all (n_obs n)) eqn:A.
  - rewrite np_all_spec in A. rewrite <- (bget_clip _ (n_obs n) p), A; [reflexivity|].
    now apply (valid_clip _ (n_plates n)).
  - destruct (bget (n_obs n) p); [reflexivity|]. now rewrite bget_map.
Qed.
End Dist.
