(** Lemmas about the mixture model. *)
From Coq Require Import List Arith ZArith Lia Bool Reals Lra FunctionalExtensionality.
From Verif Require Import Base Shapes SpecShapes ShapesLemmas NumPy MiscArray TensorLemmas
  SpecArray SpecIndex SumMultiplyLemmas PlateSumLemmas ShapeOpsLemmas MessageLemmas EinsumLemmas ExpFamBound DiagLemmas
  PArrays Reindex TakeConcat TakeLemmas PTake PConcat AddAxis PAddAxis Gate GateLemmas PGate Mixture SpecMixture.
Import ListNotations.
Open Scope nat_scope.

Lemma where_nonzero_ok : forall a b T, broadcasts_to (ash a) T -> broadcasts_to (ash b) T ->
  exists y, where_nonzero a b = Ok y /\ numpy_broadcast [ash a; ash b] (ash y) /\ broadcasts_to (ash y) T /\
    forall e, bget y e = if Req_EM_T (bget a e) 0 then 0%R else bget b e.
Proof. intros a b T A B. unfold where_nonzero. now apply map2_upper. Qed.

Lemma mixture_g_ok : forall QL K QR (g : arr R), broadcasts_to (ash g) (QL ++ K :: QR) ->
  exists g1, mixture_g (length QR) g = Ok g1 /\ broadcasts_to (ash g1) ((QL ++ QR) ++ [K]) /\ 1 <= ndim g1 /\
    forall l k r, length r = length QR -> bget g1 (at_index ((l ++ r) ++ [k])) = bget g (at_index (l ++ k :: r)).
Proof.
  intros QL K QR g GB. pose proof (gate_x_ok QL K QR [] g) as H. rewrite !app_nil_r in H. cbn [length] in H. rewrite !Nat.add_0_r in H.
  destruct (H GB) as (g1 & E & B & G). exists g1. unfold mixture_g. change (expand_at g 0) with (add_trailing_axes g 1).
  split; [exact E|]. split; [exact B|]. split.
  - destruct (Nat.ltb_spec (ndim g) (length QR + 1)).
    + injection E as <-. change (1 <= ndim (add_trailing_axes g 1)). destruct (add_trailing_ok _ g 1) as (T1 & _). rewrite T1. lia.
    + destruct (moveaxis_env _ g (length QR) 0) as (y & E' & L' & _); [lia|lia|]. rewrite E' in E. injection E as <-. lia.
  - intros l k r Lr. rewrite at_ins_last, G. pose proof (at_ins l k r []) as A. rewrite !app_nil_r, Nat.add_0_r in A. now rewrite A, Lr.
Qed.

Lemma mixture_phi_ok : forall QL K QR d (z x : arr R),
  broadcasts_to (ash z) ((QL ++ QR) ++ [K]) -> 1 <= ndim z -> ax (ash z) 0 = K ->
  broadcasts_to (ash x) (QL ++ K :: QR ++ d) ->
  exists y, mixture_phi (length QR) (length d) z x = Ok y /\ broadcasts_to (ash y) (QL ++ QR ++ d) /\
    forall l r v, within l QL -> within r QR -> within v d ->
      bget y (at_index (l ++ r ++ v)) = rsum K (fun k => bget z (at_index ((l ++ r) ++ [k])) * bget x (at_index (l ++ k :: r ++ v)))%R.
Proof.
  intros QL K QR d z x ZB NZ KZ XB. unfold mixture_phi.
  destruct (gate_z_ok (QL ++ QR) K d z ZB NZ KZ) as (z1 & E1 & L1 & K1 & B1 & G1). unfold gate_z in E1.
  destruct (gate_x_ok QL K QR d x XB) as (x1 & E2 & B2 & G2).
  replace (if length QR + length d + 1 <=? ndim x then moveaxis x (neg_axis (length QR + length d)) (neg_axis 0) else Ok (expand_at x 0)) with (Ok x1).
  2:{ rewrite <- E2. change (add_trailing_axes x 1) with (expand_at x 0).
      destruct (Nat.ltb_spec (ndim x) (length QR + length d + 1)), (Nat.leb_spec (length QR + length d + 1) (ndim x)); try lia; reflexivity. }
  cbn [bind]. rewrite E1. cbn [bind]. rewrite <- (app_assoc QL QR d) in B1.
  destruct (where_nonzero_ok z1 x1 _ B1 B2) as (x2 & E3 & _ & B3 & G3). rewrite E3. cbn [bind].
  destruct (sum_product_trailing z1 x2 (QL ++ QR ++ d) [K] (AxScalar (-1)) B1 B3) as (y & Ey & YB & _ & GY).
  - cbn [length]. lia.
  - intros k Hk. cbn in Hk. left. replace k with 0 by lia. exact K1.
  - intros n Hn. now apply named_last.
  - exact I.
  - exists y. split; [exact Ey|]. split; [exact YB|]. intros l r v Hl Hr Hv.
    pose proof (F2_length _ _ _ _ _ Hr) as Lr. pose proof (F2_length _ _ _ _ _ Hv) as Lv.
    rewrite GY by (apply valid_at_index; apply F2_app; [assumption|now apply F2_app]). cbn [length]. rewrite total_one. apply rsum_ext. intros k Hk.
    rewrite join_ins, G3, G1, G2, at_ins, Lr, Lv.
    replace (bget z (at_index ((l ++ r) ++ [k]))) with (bget z (ins 0 k (fun j => at_index (l ++ r ++ v) (j + length d)))).
    + destruct (Req_EM_T _ 0) as [Z|Z]; [rewrite Z|]; ring.
    + f_equal. rewrite at_ins_last. f_equal.
      apply functional_extensionality. intros j. rewrite app_assoc, at_index_app, <- Lv. unfold join.
      destruct (Nat.ltb_spec (j + length v) (length v)); [lia|]. f_equal. lia.
Qed.

Lemma mixture_cgf_ok : forall QL K QR (z g : arr R),
  broadcasts_to (ash z) ((QL ++ QR) ++ [K]) -> 1 <= ndim z -> ax (ash z) 0 = K ->
  broadcasts_to (ash g) (QL ++ K :: QR) ->
  exists y, mixture_cgf (length QR) z g = Ok y /\ broadcasts_to (ash y) (QL ++ QR) /\
    forall l r, within l QL -> within r QR ->
      bget y (at_index (l ++ r)) = rsum K (fun k => bget z (at_index ((l ++ r) ++ [k])) * bget g (at_index (l ++ k :: r)))%R.
Proof.
  intros QL K QR z g ZB NZ KZ GB. unfold mixture_cgf.
  destruct (mixture_g_ok QL K QR g GB) as (g1 & E1 & B1 & N1 & G1). rewrite E1. cbn [bind].
  destruct (sum_product_trailing z g1 (QL ++ QR) [K] (AxScalar (-1)) ZB B1) as (y & Ey & YB & _ & GY).
  - cbn [length]. lia.
  - intros k Hk. cbn in Hk. left. replace k with 0 by lia. exact KZ.
  - intros n Hn. now apply named_last.
  - exact I.
  - exists y. split; [exact Ey|]. split; [exact YB|]. intros l r Hl Hr. pose proof (F2_length _ _ _ _ _ Hr) as Lr.
    rewrite GY by (apply valid_at_index; now apply F2_app). cbn [length]. rewrite total_one. apply rsum_ext. intros k Hk.
    rewrite join_ins, <- at_ins_last, G1 by exact Lr. reflexivity.
Qed.

Lemma logpdf_ok : forall T l (g f : arr R), broadcasts_to (ash g) T -> broadcasts_to (ash f) T ->
  Forall (fun t => broadcasts_to (ash (t_phi t)) (T ++ t_dims t) /\ broadcasts_to (ash (t_u t)) (T ++ t_dims t) /\ full_dims (t_dims t) (t_u t)) l ->
  exists L, compute_logpdf g f (map term_of l) = Ok L /\ broadcasts_to (ash L) T /\ ndim g <= ndim L /\ ndim f <= ndim L /\
    forall t, within t T -> bget L (at_index t) =
      (bget g (at_index t) + bget f (at_index t) +
       lsum (map (fun i => lsum (map (fun v => bget (t_phi i) (at_index (t ++ v)) * bget (t_u i) (at_index (t ++ v)))%R (lists (t_dims i)))) l))%R.
Proof.
  intros T l g f GB FB HL. unfold compute_logpdf.
  destruct (map2_upper _ _ _ Rplus g f T GB FB) as (L0 & E0 & N0 & B0 & G0). rewrite E0. cbn [bind].
  set (val := fun (t : list nat) i => lsum (map (fun v => bget (t_phi i) (at_index (t ++ v)) * bget (t_u i) (at_index (t ++ v)))%R (lists (t_dims i)))).
  assert (FO : forall l L0, broadcasts_to (ash L0) T ->
    Forall (fun t => broadcasts_to (ash (t_phi t)) (T ++ t_dims t) /\ broadcasts_to (ash (t_u t)) (T ++ t_dims t) /\ full_dims (t_dims t) (t_u t)) l ->
    exists L, foldM (fun L (t : nat * arr R * arr R) => let '(nd, phi, u) := t in
           w <- where_nonzero u phi ;; m <- np_multiply w u ;;
           if nd <=? ndim m then np_map2 Rplus L (np_sum m (seq 0 nd)) else Err ValueError) L0 (map term_of l) = Ok L /\
      broadcasts_to (ash L) T /\ ndim L0 <= ndim L /\
      forall t, within t T -> bget L (at_index t) = (bget L0 (at_index t) + lsum (map (val t) l))%R).
  { clear. induction l as [|i l IH]; intros L0 B0 HL.
    - exists L0. split; [reflexivity|]. split; [exact B0|]. split; [lia|]. intros. cbn. lra.
    - inversion HL as [|? ? (I1 & I2 & I3 & I4) HL']; subst. cbn [map foldM]. unfold term_of at 1.
      destruct (where_nonzero_ok (t_u i) (t_phi i) _ I2 I1) as (w & Ew & Nw & Bw & Gw). rewrite Ew. cbn [bind].
      destruct (map2_upper _ _ _ Rmult w (t_u i) _ Bw I2) as (m & Em & Nm & Bm & Gm). unfold np_multiply. rewrite Em. cbn [bind].
      assert (NM : ndim (t_u i) <= ndim m) by (destruct Nm as (N1 & _); unfold ndim; apply N1; right; now left).
      assert (FM : forall k, k < length (t_dims i) -> ax (ash m) k = ax (t_dims i) k).
      { intros k Hk. destruct Nm as (_ & _ & N3). destruct (N3 k) as [M1 _]. specialize (M1 (ash (t_u i)) ltac:(right; now left)).
        rewrite (I4 k Hk) in M1. destruct M1 as [M1|M1]; [|congruence]. destruct Bm as [_ Bm]. specialize (Bm k). rewrite ax_app in Bm.
        apply Nat.ltb_lt in Hk. rewrite Hk in Bm. destruct Bm; congruence. }
      destruct (Nat.leb_spec (length (t_dims i)) (ndim m)) as [_|]; [|lia].
      destruct (np_sum_trailing m (t_dims i)) as (S1 & S2 & S3); [lia|exact FM|]. cbn zeta in S1, S2, S3.
      set (y := np_sum m (seq 0 (length (t_dims i)))) in *.
      assert (YB : broadcasts_to (ash y) T).
      { destruct Bm as [M1 M2]. rewrite app_length in M1. fold (ndim m) in M1. split; [fold (ndim y); lia|]. intros k. rewrite S2.
        specialize (M2 (k + length (t_dims i))). rewrite ax_app in M2. destruct (Nat.ltb_spec (k + length (t_dims i)) (length (t_dims i))); [lia|].
        now replace (k + length (t_dims i) - length (t_dims i)) with k in M2 by lia. }
      destruct (map2_upper _ _ _ Rplus L0 y T B0 YB) as (L1 & E1 & N1 & B1 & G1). rewrite E1. cbn [bind].
      destruct (IH L1 B1 HL') as (L & EL & BL & NL & GL). exists L. split; [exact EL|]. split; [exact BL|]. split.
      { destruct N1 as (N1 & _). specialize (N1 (ash L0) ltac:(now left)). unfold ndim in *. lia. }
      intros t Ht. rewrite GL, G1, S3 by exact Ht. change (lsum (map (val t) (i :: l))) with (val t i + lsum (map (val t) l))%R.
      rewrite total_lists. cbv beta. replace (lsum (map (fun v => bget m (join (length (t_dims i)) (at_index t) (at_index v))) (lists (t_dims i)))) with (val t i); [change (lsum (?p :: ?q)) with (p + lsum q)%R; lra|].
      unfold val. apply lsum_map_ext. intros v Hv. apply in_lists in Hv. pose proof (F2_length _ _ _ _ _ Hv) as Lv.
      rewrite <- Lv, <- at_index_app, Gm, Gw. destruct (Req_EM_T _ 0) as [Z|Z]; [rewrite Z|]; ring. }
  destruct (FO l L0 B0 HL) as (L & EL & BL & NL & GL). exists L. split; [exact EL|]. split; [exact BL|].
  destruct N0 as (N0 & _). pose proof (N0 (ash g) ltac:(now left)). pose proof (N0 (ash f) ltac:(right; now left)). unfold ndim in *.
  split; [lia|]. split; [lia|]. intros t Ht. rewrite GL, G0 by exact Ht. reflexivity.
Qed.

(** The moments with a unit cluster axis. *)
Lemma expand_u_ok : forall QL K QR d (u : arr R), broadcasts_to (ash u) (QL ++ QR ++ d) -> full_dims d u -> length QR + length d <= ndim u ->
  broadcasts_to (ash (expand_at u (length QR + length d))) (QL ++ K :: QR ++ d) /\ full_dims d (expand_at u (length QR + length d)) /\
  forall l k r v, length r = length QR -> length v = length d ->
    bget (expand_at u (length QR + length d)) (at_index (l ++ k :: r ++ v)) = bget u (at_index (l ++ r ++ v)).
Proof.
  intros QL K QR d u [U1 U2] [F1 F2] N. set (K0 := length QR + length d) in *.
  rewrite !app_length in U1. fold (ndim u) in U1. split; [|split].
  - split; [fold (ndim (expand_at u K0)); rewrite ndim_expand_at, app_length; cbn [length]; rewrite app_length; lia|].
    intros j. rewrite ax_ins, ash_expand_at by lia. fold K0. destruct (j <? K0); [apply U2|]. destruct (j =? K0); [now left|apply U2].
  - split; [rewrite ndim_expand_at; lia|]. intros j Hj. rewrite ash_expand_at by lia. destruct (Nat.ltb_spec j K0); [now apply F2|unfold K0 in *; lia].
  - intros l k r v Lr Lv. rewrite at_ins, Lr, Lv. fold K0. rewrite bget_expand_at by lia. apply bget_ext. intros j _ _. unfold ins.
    destruct (Nat.ltb_spec j K0) as [C|C]; [reflexivity|]. destruct (Nat.ltb_spec (S j) K0); [lia|]. destruct (Nat.eqb_spec (S j) K0); [lia|]. f_equal. lia.
Qed.

Lemma mixture_u_ok : forall QL K QR d (u : arr R), broadcasts_to (ash u) (QL ++ QR ++ d) -> full_dims d u ->
  exists u1, mixture_u (length QR) (length d) u = Ok u1 /\ broadcasts_to (ash u1) (QL ++ K :: QR ++ d) /\ full_dims d u1 /\
  forall l k r v, length r = length QR -> length v = length d -> bget u1 (at_index (l ++ k :: r ++ v)) = bget u (at_index (l ++ r ++ v)).
Proof.
  intros QL K QR d u UB FU. unfold mixture_u. destruct (Nat.leb_spec (length QR + length d + 1) (ndim u)) as [C|C].
  - unfold np_expand_dims. destruct (Nat.leb_spec (length QR + length d) (ndim u)); [|lia]. eexists. split; [reflexivity|]. apply expand_u_ok; assumption.
  - exists u. split; [reflexivity|]. destruct UB as [U1 U2]. split; [|split; [exact FU|]].
    + split; [rewrite app_length in *; cbn [length]; lia|]. intros j. rewrite ax_ins. destruct (Nat.ltb_spec j (length QR + length d)); [apply U2|].
      left. apply ax_overflow. fold (ndim u). lia.
    + intros l k r v Lr Lv. rewrite at_ins, Lr, Lv. apply bget_ext. intros j Hj _. fold (ndim u) in Hj. unfold ins.
      destruct (Nat.ltb_spec j (length QR + length d)); [reflexivity|lia].
Qed.

(** The probabilities with the cluster axis moved to its place among the plates. *)
Lemma move_z_ok : forall QL K QR (z : arr R), broadcasts_to (ash z) ((QL ++ QR) ++ [K]) -> 1 <= ndim z ->
  exists p1 p, atleast_nd z (length QR + 1) = Ok p1 /\ moveaxis p1 (neg_axis 0) (neg_axis (length QR)) = Ok p /\
    broadcasts_to (ash p) (QL ++ K :: QR) /\
    forall l k r, within l QL -> k < K -> within r QR -> bget p (at_index (l ++ k :: r)) = bget z (at_index ((l ++ r) ++ [k])).
Proof.
  intros QL K QR z [Z1 Z2] NZ. destruct (atleast_ok _ z (length QR + 1)) as (p1 & E1 & L1 & A1 & G1).
  rewrite !app_length in Z1. cbn [length] in Z1. fold (ndim z) in Z1. fold (ndim p1) in L1.
  destruct (moveaxis_env _ p1 0 (length QR)) as (p & E & L & A & G); [lia|lia|]. exists p1, p. split; [exact E1|]. split; [exact E|].
  assert (AX : forall j, ax (QL ++ K :: QR) j = if j <? length QR then ax (QL ++ QR) j else if j =? length QR then K else ax (QL ++ QR) (j - 1)).
  { intros j. pose proof (ax_ins QL K QR [] j) as H. rewrite !app_nil_r, Nat.add_0_r in H. exact H. }
  split.
  - split; [fold (ndim p); rewrite app_length; cbn [length]; lia|]. intros j. rewrite A, A1, AX. unfold dst. destruct (Nat.eqb_spec j (length QR)) as [->|J].
    + rewrite Nat.ltb_irrefl. specialize (Z2 0). now rewrite ax_last in Z2.
    + destruct (Nat.ltb_spec j (length QR)).
      * destruct (Nat.ltb_spec j 0); [lia|]. specialize (Z2 (S j)). rewrite ax_last in Z2. cbn [Nat.eqb] in Z2. now replace (S j - 1) with j in Z2 by lia.
      * destruct (Nat.ltb_spec (j - 1) 0); [lia|]. specialize (Z2 (S (j - 1))). rewrite ax_last in Z2. cbn [Nat.eqb] in Z2. now replace (S (j - 1) - 1) with (j - 1) in Z2 by lia.
  - intros l k r Hl Hk Hr. pose proof (F2_length _ _ _ _ _ Hr) as Lr. rewrite G.
    assert (IN : at_index (l ++ k :: r) = ins (length QR) k (at_index (l ++ r))).
    { pose proof (at_ins l k r []) as B. rewrite !app_nil_r, Nat.add_0_r, Lr in B. exact B. }
    rewrite IN.
    assert (EQ : (fun j => ins (length QR) k (at_index (l ++ r)) (dst 0 (length QR) j)) = at_index ((l ++ r) ++ [k])).
    { rewrite at_ins_last. apply functional_extensionality. intros j. unfold dst, ins. destruct (Nat.eqb_spec j 0) as [->|J].
      - now rewrite !Nat.ltb_irrefl, !Nat.eqb_refl.
      - destruct (Nat.ltb_spec j 0); [lia|]. destruct (Nat.ltb_spec (j - 1) (length QR)) as [D|D].
        + apply Nat.ltb_lt in D. now rewrite D.
        + destruct (Nat.ltb_spec (S (j - 1)) (length QR)); [lia|]. destruct (Nat.eqb_spec (S (j - 1)) (length QR)); [lia|]. f_equal. lia. }
    rewrite EQ. apply G1. intros j Hj.
    assert (V : valid ((QL ++ QR) ++ [K]) (at_index ((l ++ r) ++ [k]))).
    { apply valid_at_index. apply F2_app; [now apply F2_app|]. constructor; [exact Hk|constructor]. }
    destruct (Z2 j) as [Q|Q]; [contradiction|]. rewrite Q. apply V.
Qed.
