(** Theorems for C19 (and the mixture parts of C20): the Mixture node. *)
From Coq Require Import List Arith ZArith Lia Bool Reals Lra FunctionalExtensionality.
From Verif Require Import Base Shapes SpecShapes ShapesLemmas NumPy MiscArray TensorLemmas
  SpecArray SpecIndex SumMultiplyLemmas PlateSumLemmas ShapeOpsLemmas MessageLemmas EinsumLemmas ExpFamBound DiagLemmas
  PArrays Reindex TakeConcat TakeLemmas PTake PConcat AddAxis PAddAxis Gate GateLemmas PGate Mixture SpecMixture MixtureLemmas.
Import ListNotations.
Open Scope nat_scope.

(** Natural parameters and log-normaliser: the averages of those of the components. *)
Theorem C19_mixture_parameters : forall QL K QR (z : arr R), probs_ok QL K QR z ->
  (forall d Phi, broadcasts_to (ash Phi) (QL ++ K :: QR ++ d) ->
     exists phi, mixture_phi (length QR) (length d) z Phi = Ok phi /\ broadcasts_to (ash phi) (QL ++ QR ++ d) /\
       forall a b v, within a QL -> within b QR -> within v d ->
         bget phi (at_index (a ++ b ++ v)) = rsum K (fun k => prob z a b k * bget Phi (at_index (a ++ k :: b ++ v)))%R) /\
  (forall g, broadcasts_to (ash g) (QL ++ K :: QR) ->
     exists gm, mixture_cgf (length QR) z g = Ok gm /\ broadcasts_to (ash gm) (QL ++ QR) /\
       forall a b, within a QL -> within b QR ->
         bget gm (at_index (a ++ b)) = rsum K (fun k => prob z a b k * bget g (at_index (a ++ k :: b)))%R).
Proof.
  intros QL K QR z (Z1 & Z2 & Z3). split.
  - intros d Phi HP. destruct (mixture_phi_ok QL K QR d z Phi Z1 Z2 Z3 HP) as (y & H). exists y. exact H.
  - intros g HG. destruct (mixture_cgf_ok QL K QR z g Z1 Z2 Z3 HG) as (y & H). exists y. exact H.
Qed.

(** Consistency: the expected log-density the node computes from its own natural parameters
    and log-normaliser is the average of those of the components. *)
Theorem C19_mixture_density : forall QL K QR (z g : arr R) l, probs_ok QL K QR z ->
  broadcasts_to (ash g) (QL ++ K :: QR) -> Forall (term_ok QL K QR) l ->
  exists phis gm L,
    mapM (fun t => mixture_phi (length QR) (length (t_dims t)) z (t_phi t)) l = Ok phis /\
    mixture_cgf (length QR) z g = Ok gm /\
    compute_logpdf gm (scalar 0%R) (map (fun p : term * arr R => (length (t_dims (fst p)), snd p, t_u (fst p))) (combine l phis)) = Ok L /\
    broadcasts_to (ash L) (QL ++ QR) /\
    forall a b, within a QL -> within b QR ->
      bget L (at_index (a ++ b)) = rsum K (fun k => prob z a b k * component_logpdf g l a k b)%R.
Proof.
  intros QL K QR z g l (Z1 & Z2 & Z3) HG HL.
  destruct (mixture_cgf_ok QL K QR z g Z1 Z2 Z3 HG) as (gm & Eg & Bg & Gg).
  assert (P : exists phis, mapM (fun t => mixture_phi (length QR) (length (t_dims t)) z (t_phi t)) l = Ok phis /\
     Forall2 (fun t phi => broadcasts_to (ash phi) (QL ++ QR ++ t_dims t) /\
       forall a b v, within a QL -> within b QR -> within v (t_dims t) ->
         bget phi (at_index (a ++ b ++ v)) = rsum K (fun k => prob z a b k * bget (t_phi t) (at_index (a ++ k :: b ++ v)))%R) l phis).
  { clear -HL Z1 Z2 Z3. induction HL as [|t l (T1 & T2 & T3) HL (phis & E & F)]; [exists []; split; [reflexivity|constructor]|].
    destruct (mixture_phi_ok QL K QR (t_dims t) z (t_phi t) Z1 Z2 Z3 T1) as (y & Ey & By & Gy).
    exists (y :: phis). cbn [mapM]. rewrite Ey. cbn [bind]. rewrite E. cbn [bind]. split; [reflexivity|]. constructor; [split; assumption|exact F]. }
  destruct P as (phis & Ep & Fp). set (l' := map (fun p : term * arr R => Term (t_dims (fst p)) (snd p) (t_u (fst p))) (combine l phis)).
  destruct (logpdf_ok (QL ++ QR) l' gm (scalar 0%R) Bg) as (L & EL & BL & _ & _ & GL).
  { split; [cbn; lia|]. intros j. left. apply ax_nil. }
  { unfold l'. clear -Fp HL. revert HL. induction Fp as [|t phi l phis (F1 & F2) F IH]; intros HL; [constructor|].
    inversion HL as [|? ? (T1 & T2 & T3) HL']; subst. cbn [combine map]. constructor; [|now apply IH]. cbn [t_phi t_u t_dims fst snd].
    rewrite <- app_assoc. split; [exact F1|]. split; assumption. }
  exists phis, gm, L. split; [exact Ep|]. split; [exact Eg|]. split.
  { rewrite <- EL. f_equal. unfold l'. rewrite map_map. reflexivity. }
  split; [exact BL|]. intros a b Ha Hb. rewrite GL by now apply F2_app. rewrite Gg by assumption.
  change (bget (scalar 0%R) ?e) with 0%R.
  transitivity (rsum K (fun k => prob z a b k * bget g (at_index (a ++ k :: b)))%R +
     rsum K (fun k => prob z a b k * lsum (map (fun i => lsum (map (fun v => bget (t_phi i) (at_index (a ++ k :: b ++ v)) * bget (t_u i) (at_index (a ++ b ++ v)))%R
                                 (lists (t_dims i)))) l)))%R.
  2:{ rewrite <- rsum_plus. apply rsum_ext. intros k _. unfold component_logpdf. ring. }
  unfold prob at 1. rewrite Rplus_0_r. f_equal. unfold l'. clear -Fp Ha Hb. induction Fp as [|t phi l phis (F1 & F2) F IH].
  - cbn [combine map]. change (lsum []) with 0%R. symmetry. transitivity (rsum K (fun _ => 0%R)); [|apply rsum_0]. apply rsum_ext. intros. ring.
  - cbn [combine map]. change (lsum (?p :: ?q)) with (p + lsum q)%R. rewrite IH. cbn [t_phi t_u t_dims fst snd].
    transitivity (rsum K (fun k => prob z a b k * lsum (map (fun v => bget (t_phi t) (at_index (a ++ k :: b ++ v)) * bget (t_u t) (at_index (a ++ b ++ v)))%R (lists (t_dims t))))%R +
      rsum K (fun k => prob z a b k * lsum (map (fun i => lsum (map (fun v => bget (t_phi i) (at_index (a ++ k :: b ++ v)) * bget (t_u i) (at_index (a ++ b ++ v)))%R
                                 (lists (t_dims i)))) l)))%R.
    2:{ rewrite <- rsum_plus. apply rsum_ext. intros k _. change (lsum (?p :: ?q)) with (p + lsum q)%R. ring. }
    f_equal. transitivity (lsum (map (fun v => rsum K (fun k => prob z a b k * bget (t_phi t) (at_index (a ++ k :: b ++ v)) * bget (t_u t) (at_index (a ++ b ++ v)))%R) (lists (t_dims t)))).
    + apply lsum_map_ext. intros v Hv. apply in_lists in Hv. rewrite <- app_assoc, F2 by assumption. rewrite <- rsum_scal_r. reflexivity.
    + rewrite lsum_rsum. apply rsum_ext. intros k _. rewrite lsum_scal. apply lsum_map_ext. intros v _. ring.
Qed.

(** Known assignments: the log-density of the selected component. *)
Theorem C21_mixture : forall QL K QR (z g : arr R) l (s : list nat -> list nat -> nat), probs_ok QL K QR z ->
  broadcasts_to (ash g) (QL ++ K :: QR) -> Forall (term_ok QL K QR) l ->
  (forall a b, within a QL -> within b QR -> s a b < K /\ forall k, k < K -> prob z a b k = if k =? s a b then 1%R else 0%R) ->
  exists phis gm L,
    mapM (fun t => mixture_phi (length QR) (length (t_dims t)) z (t_phi t)) l = Ok phis /\
    mixture_cgf (length QR) z g = Ok gm /\
    compute_logpdf gm (scalar 0%R) (map (fun p : term * arr R => (length (t_dims (fst p)), snd p, t_u (fst p))) (combine l phis)) = Ok L /\
    forall a b, within a QL -> within b QR -> bget L (at_index (a ++ b)) = component_logpdf g l a (s a b) b.
Proof.
  intros QL K QR z g l s HZ HG HL HS. destruct (C19_mixture_density QL K QR z g l HZ HG HL) as (phis & gm & L & E1 & E2 & E3 & _ & GL).
  exists phis, gm, L. split; [exact E1|]. split; [exact E2|]. split; [exact E3|]. intros a b Ha Hb. rewrite GL by assumption.
  destruct (HS a b Ha Hb) as [S1 S2]. rewrite <- (rsum_single K (s a b) (fun k => component_logpdf g l a k b) S1). apply rsum_ext. intros k Hk.
  rewrite S2 by exact Hk. destruct (Nat.eqb_spec k (s a b)) as [->|]; ring.
Qed.

Lemma lsum_map_plus : forall A (f g : A -> R) l, lsum (map (fun a => f a + g a)%R l) = (lsum (map f l) + lsum (map g l))%R.
Proof. intros. induction l as [|a l IH]; unfold lsum in *; cbn; [lra|]. rewrite IH. lra. Qed.
Lemma zero_ok : forall T, broadcasts_to (ash (scalar 0%R)) T.
Proof. intros T. split; [cbn; lia|]. intros j. left. apply ax_nil. Qed.

(** Moving the last axis to the last place. *)
Lemma moveaxis_last : forall A (x : arr A), 1 <= ndim x ->
  exists y, moveaxis x (neg_axis 0) (neg_axis 0) = Ok y /\ ndim y = ndim x /\ (forall j, ax (ash y) j = ax (ash x) j) /\ forall e, bget y e = bget x e.
Proof.
  intros A x N. destruct (moveaxis_env _ x 0 0) as (y & E & L & A1 & G); [lia|lia|]. exists y. split; [exact E|]. split; [exact L|].
  assert (D : forall j, dst 0 0 j = j).
  { intros j. unfold dst. destruct (Nat.eqb_spec j 0); [now subst|]. destruct (Nat.ltb_spec j 0); [lia|]. destruct (Nat.ltb_spec (j - 1) 0); lia. }
  split; [intros j; now rewrite A1, D|]. intros e. rewrite G. apply bget_ext. intros j _ _. now rewrite D.
Qed.

(** Message to the assignments, clusters on the last plate axis (the default): component k
    gets E[log p(x | theta_k)]; the message is the coefficient of the probabilities in the
    expected log-density. *)
Theorem C19_message_z : forall Q K (z g : arr R) l, probs_ok Q K [] z ->
  broadcasts_to (ash g) (Q ++ [K]) -> Forall (term_ok Q K []) l ->
  exists m, mixture_message_z 0 g (map term_of l) = Ok m /\ broadcasts_to (ash m) (Q ++ [K]) /\
    (forall a k, within a Q -> k < K -> bget m (at_index (a ++ [k])) = component_logpdf g l a k []) /\
    total (Q ++ [K]) (fun e => bget m e * bget z e)%R =
    total Q (fun e => rsum K (fun k => bget z (ins 0 k e) * bget m (ins 0 k e))%R).
Proof.
  intros Q K z g l (Z1 & Z2 & Z3) HG HL. unfold mixture_message_z.
  destruct (mixture_g_ok Q K [] g HG) as (g1 & E1 & B1 & N1 & G1). cbn [length] in E1. rewrite E1. cbn [bind]. rewrite app_nil_r in B1.
  assert (U : exists us, mapM (fun t : nat * arr R * arr R => let '(nd, phi, u) := t in u1 <- mixture_u 0 nd u ;; Ok (nd, phi, u1)) (map term_of l) = Ok (map term_of us) /\
     Forall2 (fun t s => t_dims s = t_dims t /\ t_phi s = t_phi t /\ broadcasts_to (ash (t_u s)) (Q ++ K :: t_dims t) /\ full_dims (t_dims t) (t_u s) /\
       forall a k v, length v = length (t_dims t) -> bget (t_u s) (at_index (a ++ k :: v)) = bget (t_u t) (at_index (a ++ v))) l us).
  { clear -HL. induction HL as [|t l (T1 & T2 & T3) HL (us & E & F)]; [exists []; split; [reflexivity|constructor]|].
    destruct (mixture_u_ok Q K [] (t_dims t) (t_u t) T2 T3) as (u1 & Eu & Bu & Fu & Gu). cbn [length Nat.add] in Eu.
    exists (Term (t_dims t) (t_phi t) u1 :: us). cbn [map mapM]. unfold term_of at 1. rewrite Eu. cbn [bind]. rewrite E. cbn [bind].
    split; [reflexivity|]. constructor; [|exact F]. cbn [t_dims t_phi t_u]. split; [reflexivity|]. split; [reflexivity|]. split; [exact Bu|]. split; [exact Fu|].
    intros a k v Lv. exact (Gu a k [] v eq_refl Lv). }
  destruct U as (us & Eu & Fu). rewrite Eu. cbn [bind].
  destruct (logpdf_ok (Q ++ [K]) us g1 (scalar 0%R) B1 (zero_ok _)) as (L & EL & BL & NL & _ & GL).
  { clear -Fu HL. revert HL. induction Fu as [|t s l us (F1 & F2 & F3 & F4 & F5) F IH]; intros HL; [constructor|].
    inversion HL as [|? ? (T1 & T2 & T3) HL']; subst. constructor; [|now apply IH]. rewrite F1, F2, <- app_assoc. split; [exact T1|]. split; assumption. }
  rewrite EL. cbn [bind]. destruct (moveaxis_last _ L ltac:(lia)) as (m & Em & Lm & Am & Gm). exists m. split; [exact Em|]. split.
  { destruct BL as [L1 L2]. split; [fold (ndim m) in *; fold (ndim L) in *; lia|]. intros j. rewrite Am. apply L2. }
  split.
  - intros a k Ha Hk. rewrite Gm, GL by (apply F2_app; [exact Ha|constructor; [exact Hk|constructor]]).
    change (bget (scalar 0%R) ?e) with 0%R. unfold component_logpdf.
    pose proof (G1 a k [] eq_refl) as G1'. rewrite app_nil_r in G1'. rewrite G1', Rplus_0_r. f_equal.
    clear -Fu. induction Fu as [|t s l us (F1 & F2 & F3 & F4 & F5) F IH]; [reflexivity|]. cbn [map].
    change (lsum (?p :: ?q)) with (p + lsum q)%R. rewrite IH. f_equal. rewrite F1. apply lsum_map_ext. intros v Hv. apply in_lists in Hv.
    rewrite F2, <- !app_assoc. cbn [app]. rewrite F5 by (eapply F2_length; exact Hv). reflexivity.
  - rewrite (total_lists (Q ++ [K])), lists_app, lsum_one, (total_lists Q), lsum_rsum. apply rsum_ext. intros k _. apply lsum_map_ext. intros a _. rewrite at_ins_last. ring.
Qed.

(** Probabilities and message give the expected log-density of the node (C20). *)
Theorem C20_mixture_assignments : forall Q K (z g : arr R) l, probs_ok Q K [] z ->
  broadcasts_to (ash g) (Q ++ [K]) -> Forall (term_ok Q K []) l ->
  exists phis gm L m,
    mapM (fun t => mixture_phi 0 (length (t_dims t)) z (t_phi t)) l = Ok phis /\
    mixture_cgf 0 z g = Ok gm /\
    compute_logpdf gm (scalar 0%R) (map (fun p : term * arr R => (length (t_dims (fst p)), snd p, t_u (fst p))) (combine l phis)) = Ok L /\
    mixture_message_z 0 g (map term_of l) = Ok m /\
    total Q (bget L) = total (Q ++ [K]) (fun e => bget m e * bget z e)%R.
Proof.
  intros Q K z g l HZ HG HL. destruct (C19_mixture_density Q K [] z g l HZ HG HL) as (phis & gm & L & E1 & E2 & E3 & BL & GL).
  destruct (C19_message_z Q K z g l HZ HG HL) as (m & Em & Bm & Gm & Tm). exists phis, gm, L, m.
  split; [exact E1|]. split; [exact E2|]. split; [exact E3|]. split; [exact Em|]. rewrite Tm, !total_lists. apply lsum_map_ext. intros a Ha.
  apply in_lists in Ha. pose proof (GL a [] Ha (Forall2_nil _)) as GL'. rewrite app_nil_r in GL'. rewrite GL'. apply rsum_ext. intros k Hk.
  rewrite <- at_ins_last, Gm by assumption. unfold prob. rewrite app_nil_r. reflexivity.
Qed.

Lemma bcast_err : forall A B C (f : A -> B -> C) a b k, ax (ash a) k <> 1 -> ax (ash b) k <> 1 -> ax (ash a) k <> ax (ash b) k ->
  np_map2 f a b = Err ValueError.
Proof.
  intros A B C f a b k H1 H2 H3. unfold np_map2. rewrite np_bshape_eq.
  assert (E : broadcasted_shape [ash a; ash b] = Err ValueError).
  { apply broadcasted_shape_error_iff. exists k, (ash a), (ash b). repeat split; try assumption; [now left|right; now left]. }
  now rewrite E.
Qed.

Lemma shape2 : forall A (x : arr A) p q, ndim x = 2 -> ax (ash x) 0 = q -> ax (ash x) 1 = p -> ash x = [p; q].
Proof.
  intros A x p q N A0 A1. unfold ndim in N. destruct (ash x) as [|a [|b [|c r]]]; cbn in *; try lia. now subst.
Qed.

(** Clusters on the second-last axis: the log-normaliser is moved to the other axis order
    before it is added to the rest.  With K components over M plates (M <> K) the message
    raises; with M = K it gets the log-normaliser of the wrong component. *)
Theorem C19_message_z_refuted :
  (forall K M g phi u, ash g = [K; M] -> ash phi = [K; M] -> ash u = [M] -> K <> 1 -> M <> 1 -> K <> M ->
     Forall (term_ok [] K [M]) [Term [] phi u] /\
     mixture_message_z 1 g (map term_of [Term [] phi u]) = Err ValueError) /\
  (forall K g phi u, ash g = [K; K] -> ash phi = [K; K] -> ash u = [K] -> K <> 1 ->
     exists m, mixture_message_z 1 g (map term_of [Term [] phi u]) = Ok m /\
       forall k b, k < K -> b < K ->
         bget m (at_index ([b] ++ [k])) =
         (component_logpdf g [Term [] phi u] [] k [b] - bget g (at_index [k; b]) + bget g (at_index [b; k]))%R).
Proof.
  assert (GO : forall K M (g phi u : arr R), ash g = [K; M] -> ash phi = [K; M] -> ash u = [M] ->
    exists g1 L0 w m, mixture_g 1 g = Ok g1 /\ ash g1 = [M; K] /\ (forall e, bget g1 e = bget g (fun j => e (dst 1 0 j))) /\
      np_map2 Rplus g1 (scalar 0%R) = Ok L0 /\ ash L0 = [M; K] /\ (forall e, bget L0 e = bget g1 e) /\
      where_nonzero u phi = Ok w /\ np_multiply w u = Ok m /\ ash m = [K; M] /\ forall e, bget m e = (bget phi e * bget u e)%R).
  { intros K M g phi u Hg Hp Hu.
    destruct (moveaxis_env _ g 1 0) as (g1 & E1 & L1 & A1 & G1); [unfold ndim; rewrite Hg; cbn; lia|unfold ndim; rewrite Hg; cbn; lia|].
    assert (S1 : ash g1 = [M; K]).
    { apply shape2; [rewrite L1; unfold ndim; now rewrite Hg| |]; rewrite A1, Hg; reflexivity. }
    destruct (map2_upper _ _ _ Rplus g1 (scalar 0%R) [M; K]) as (L0 & E2 & N2 & _ & G2); [rewrite S1; apply broadcasts_to_refl|apply zero_ok|].
    assert (S2 : forall (f : R -> R -> R) (a b y : arr R) s, ash a = s -> broadcasts_to (ash b) s -> np_map2 f a b = Ok y -> ash y = s).
    { clear. intros f a b y s <- B E. unfold np_map2 in E. rewrite np_bshape_eq in E.
      assert (Q : broadcasted_shape [ash a; ash b] = Ok (ash a)).
      { rewrite (broadcasted_shape_in_ext _ [ash b; ash a]) by (intros x; simpl; tauto). apply subset_iff_absorb, is_shape_subset_spec, B. }
      rewrite Q in E. cbn [bind] in E. injection E as <-. reflexivity. }
    assert (UB : broadcasts_to (ash u) [K; M]).
    { rewrite Hu. split; [cbn; lia|]. intros [|[|j]]; [right; reflexivity|left; reflexivity|left]. apply ax_overflow. cbn. lia. }
    destruct (where_nonzero_ok u phi [K; M]) as (w & E3 & _ & B3 & G3); [exact UB|rewrite Hp; apply broadcasts_to_refl|].
    destruct (map2_upper _ _ _ Rmult w u [K; M] B3 UB) as (m & E4 & N4 & B4 & G4).
    assert (S3 : ash w = [K; M]).
    { unfold where_nonzero, np_map2 in E3. rewrite np_bshape_eq in E3.
      assert (Q : broadcasted_shape [ash u; ash phi] = Ok [K; M]) by (rewrite Hp; apply subset_iff_absorb, is_shape_subset_spec, UB).
      rewrite Q in E3. cbn [bind] in E3. injection E3 as <-. reflexivity. }
    exists g1, L0, w, m. split.
    { unfold mixture_g. replace (ndim g) with 2 by (unfold ndim; now rewrite Hg). exact E1. }
    split; [exact S1|]. split; [exact G1|]. split; [exact E2|]. split; [eapply S2; [exact S1|apply zero_ok|exact E2]|].
    split; [intros e; rewrite G2; change (bget (scalar 0%R) e) with 0%R; lra|]. split; [exact E3|]. split; [exact E4|].
    split; [eapply S2; [exact S3|exact UB|exact E4]|]. intros e. rewrite G4, G3. destruct (Req_EM_T _ 0) as [Z|Z]; [rewrite Z|]; ring. }
  assert (SM : forall m : arr R, ndim (np_sum m (seq 0 0)) = ndim m /\ (forall k, ax (ash (np_sum m (seq 0 0))) k = ax (ash m) k) /\
      forall e, bget (np_sum m (seq 0 0)) e = bget m e).
  { intros m. destruct (np_sum_trailing m []) as (T1 & T2 & T3); [cbn; lia|cbn; lia|]. cbn [length] in *. split; [lia|]. split.
    - intros k. now rewrite T2, Nat.add_0_r.
    - intros e. rewrite T3, total_lists. cbn. rewrite Rplus_0_r. apply bget_ext. intros j _ _. unfold join.
      destruct (Nat.ltb_spec j 0); [lia|]. f_equal. lia. }
  split.
  - intros K M g phi u Hg Hp Hu HK HM HN. split.
    { constructor; [|constructor]. split; [cbn; rewrite Hp; apply broadcasts_to_refl|]. split; [cbn; rewrite Hu; apply broadcasts_to_refl|].
      split; [cbn; lia|]. cbn. intros j Hj. lia. }
    destruct (GO K M g phi u Hg Hp Hu) as (g1 & L0 & w & m & E1 & S1 & G1 & E2 & S2 & G2 & E3 & E4 & S4 & G4).
    unfold mixture_message_z. rewrite E1. cbn [bind map mapM term_of t_dims t_phi t_u length]. unfold mixture_u.
    replace (ndim u) with 1 by (unfold ndim; now rewrite Hu). cbn [Nat.add Nat.leb bind]. unfold compute_logpdf. rewrite E2. cbn [bind foldM].
    rewrite E3. cbn [bind]. rewrite E4. cbn [bind Nat.leb]. destruct (SM m) as (_ & A & _).
    rewrite (bcast_err _ _ _ Rplus L0 (np_sum m (seq 0 0)) 0); [reflexivity| | |]; rewrite ?A, ?S2, ?S4; cbn; congruence.
  - intros K g phi u Hg Hp Hu HK.
    destruct (GO K K g phi u Hg Hp Hu) as (g1 & L0 & w & m & E1 & S1 & G1 & E2 & S2 & G2 & E3 & E4 & S4 & G4).
    destruct (SM m) as (N & A & G).
    assert (BS : broadcasts_to (ash (np_sum m (seq 0 0))) [K; K]).
    { split; [unfold ndim in N; rewrite N, S4; cbn; lia|]. intros j. rewrite A, S4. now right. }
    destruct (map2_upper _ _ _ Rplus L0 (np_sum m (seq 0 0)) [K; K]) as (L & EL & NL & BL & GL); [rewrite S2; apply broadcasts_to_refl|exact BS|].
    assert (DL : ndim L = 2).
    { destruct BL as [B1 _]. destruct NL as (N1 & _). specialize (N1 (ash L0) ltac:(now left)). rewrite S2 in N1. unfold ndim. cbn in *. lia. }
    destruct (moveaxis_env _ L 1 0) as (mz & Em & _ & _ & Gm); [lia|lia|].
    exists mz. split.
    { unfold mixture_message_z. rewrite E1. cbn [bind map mapM term_of t_dims t_phi t_u length]. unfold mixture_u.
      replace (ndim u) with 1 by (unfold ndim; now rewrite Hu). cbn [Nat.add Nat.leb bind]. unfold compute_logpdf. rewrite E2. cbn [bind foldM].
      rewrite E3. cbn [bind]. rewrite E4. cbn [bind Nat.leb]. rewrite EL. cbn [bind]. exact Em. }
    intros k b Hk Hb. rewrite Gm, GL, G2, G1, G, G4. unfold component_logpdf. cbn [map app t_dims t_phi t_u lists flat_map].
    repeat match goal with |- context[lsum [?p]] => change (lsum [p]) with (p + 0)%R end.
    replace (bget phi (fun j => at_index [b; k] (dst 1 0 j))) with (bget phi (at_index [k; b])).
    2:{ apply bget_ext. rewrite Hp. intros [|[|j]] Hj _; cbn in Hj; try lia; reflexivity. }
    replace (bget u (fun j => at_index [b; k] (dst 1 0 j))) with (bget u (at_index [b])).
    2:{ apply bget_ext. rewrite Hu. intros [|j] Hj _; cbn in Hj; try lia; reflexivity. }
    replace (bget g (fun j => at_index [b; k] (dst 1 0 (dst 1 0 j)))) with (bget g (at_index [b; k])).
    2:{ apply bget_ext. rewrite Hg. intros [|[|j]] Hj _; cbn in Hj; try lia; reflexivity. }
    lra.
Qed.

(** The moments of the mixture node with a unit cluster axis, as the mixed distribution
    sees them. *)
Definition as_component (QL : list nat) (K : nat) (QR d : list nat) (u u1 : arr R) : Prop :=
  broadcasts_to (ash u1) (QL ++ K :: QR ++ d) /\ full_dims d u1 /\
  forall a k b v, length b = length QR -> length v = length d -> bget u1 (at_index (a ++ k :: b ++ v)) = bget u (at_index (a ++ b ++ v)).

(** The moments of the mixture node, each with its variable axes. *)
Definition moments_ok (QL QR : list nat) (us : list (list nat * arr R)) : Prop :=
  Forall (fun t => broadcasts_to (ash (snd t)) (QL ++ QR ++ fst t) /\ full_dims (fst t) (snd t) /\ length QR + length (fst t) <= ndim (snd t)) us.

(** Message to a parameter of the components: that of the mixed distribution, for the moments
    of the mixture node, weighted by the probabilities.  (The mixed distribution maps plates
    one to one.) *)
Theorem C19_message_parameter : forall QL K QR (z : arr R) raw (ds : list (list nat)) us,
  probs_ok QL K QR z -> moments_ok QL QR us ->
  (* the mixed distribution's message is defined *)
  (forall u1s, Forall2 (fun t u1 => as_component QL K QR (fst t) (snd t) u1) us u1s ->
     exists ms, raw u1s = Ok ms /\ Forall2 (fun m d => broadcasts_to (ash m) (QL ++ K :: QR ++ d)) ms ds) ->
  exists u1s ms mx, Forall2 (fun t u1 => as_component QL K QR (fst t) (snd t) u1) us u1s /\ raw u1s = Ok ms /\
    mixture_message_param raw Ok (length QR) (map (@length nat) ds) (map (fun t => (length (fst t), snd t)) us) z = Ok mx /\
    length ms = length ds /\ length mx = length ds /\
    forall i m m0 d, nth_error mx i = Some m -> nth_error ms i = Some m0 -> nth_error ds i = Some d ->
      broadcasts_to (ash m) (QL ++ K :: QR ++ d) /\
      forall a k b v, within a QL -> k < K -> within b QR -> within v d ->
        bget m (at_index (a ++ k :: b ++ v)) = (prob z a b k * bget m0 (at_index (a ++ k :: b ++ v)))%R.
Proof.
  intros QL K QR z raw ds us (Z1 & Z2 & Z3) HU HR.
  assert (U : exists u1s, mapM (fun t : nat * arr R => np_expand_dims (snd t) (length QR + fst t)) (map (fun t => (length (fst t), snd t)) us) = Ok u1s /\
     Forall2 (fun t u1 => as_component QL K QR (fst t) (snd t) u1) us u1s).
  { clear -HU. induction HU as [|t us (T1 & T2 & T3) HU (u1s & E & F)]; [exists []; split; [reflexivity|constructor]|].
    exists (expand_at (snd t) (length QR + length (fst t)) :: u1s). cbn [map mapM fst snd]. unfold np_expand_dims at 1.
    destruct (Nat.leb_spec (length QR + length (fst t)) (ndim (snd t))); [|lia]. cbn [bind]. rewrite E. cbn [bind]. split; [reflexivity|].
    constructor; [|exact F]. unfold as_component. now apply expand_u_ok. }
  destruct U as (u1s & Eu & Fu). destruct (HR u1s Fu) as (ms & Er & Fm).
  destruct (move_z_ok QL K QR z Z1 Z2) as (p1 & p & Ep1 & Ep & Bp & Gp).
  assert (M : exists mx, mapM (fun t : arr R * nat => np_multiply (fst t) (add_trailing_axes p (snd t))) (combine ms (map (@length nat) ds)) = Ok mx /\
    length ms = length ds /\ length mx = length ds /\
    forall i m m0 d, nth_error mx i = Some m -> nth_error ms i = Some m0 -> nth_error ds i = Some d ->
      broadcasts_to (ash m) (QL ++ K :: QR ++ d) /\
      forall a k b v, within a QL -> k < K -> within b QR -> within v d ->
        bget m (at_index (a ++ k :: b ++ v)) = (prob z a b k * bget m0 (at_index (a ++ k :: b ++ v)))%R).
  { clear -Fm Bp Gp. induction Fm as [|m0 d ms ds B F (mx & E & L1 & L2 & H)].
    - exists []. split; [reflexivity|]. split; [reflexivity|]. split; [reflexivity|]. intros [|i] m m0 d Hm; discriminate.
    - destruct (add_trailing_ok _ p (length d)) as (T1 & T2 & T3). set (pt := add_trailing_axes p (length d)) in *.
      assert (BT : broadcasts_to (ash pt) (QL ++ K :: QR ++ d)).
      { destruct Bp as [P1 P2]. fold (ndim p) in P1. split; [fold (ndim pt); rewrite T1; rewrite app_length in *; cbn [length] in *; rewrite app_length; lia|].
        intros j. rewrite T2. change (K :: QR ++ d) with ((K :: QR) ++ d). rewrite app_assoc, ax_app. destruct (j <? length d); [now left|apply P2]. }
      destruct (map2_upper _ _ _ Rmult m0 pt _ B BT) as (m & Em & _ & Bm & Gm).
      exists (m :: mx). cbn [map combine mapM fst snd]. unfold np_multiply at 1. fold pt. rewrite Em. cbn [bind]. rewrite E. cbn [bind].
      split; [reflexivity|]. cbn [length]. split; [lia|]. split; [lia|]. intros [|i] m' m0' d' H1 H2 H3; cbn [nth_error] in *; [|eapply H; eassumption].
      injection H1 as <-. injection H2 as <-. injection H3 as <-. split; [exact Bm|]. intros a k b v Ha Hk Hb Hv. pose proof (F2_length _ _ _ _ _ Hv) as Lv.
      rewrite Gm, T3. unfold prob. rewrite <- Gp by assumption. rewrite Rmult_comm. f_equal. f_equal. apply functional_extensionality. intros j.
      change (k :: b ++ v) with ((k :: b) ++ v). rewrite app_assoc, at_index_app, <- Lv. unfold join.
      destruct (Nat.ltb_spec (j + length v) (length v)); [lia|]. f_equal. lia. }
  destruct M as (mx & Em & L1 & L2 & H). exists u1s, ms, mx. split; [exact Fu|]. split; [exact Er|]. split.
  { unfold mixture_message_param. rewrite Eu. cbn [bind]. rewrite Er. cbn [bind]. rewrite Ep1. cbn [bind]. rewrite Ep. cbn [bind]. exact Em. }
  split; [exact L1|]. split; [exact L2|exact H].
Qed.

(** C20 for the parameters of the components: if the mixed distribution's message is the
    coefficient of the parameter's moments [th] in its expected log-density, then so is that
    of the mixture.  [L th] is the expected log-density of component k at a ++ [k] ++ b. *)
Theorem C20_mixture_parameter : forall QL K QR (z : arr R) raw (ds : list (list nat)) us,
  probs_ok QL K QR z -> moments_ok QL QR us ->
  forall (L : list (arr R) -> list nat -> nat -> list nat -> R) (rest : list nat -> nat -> list nat -> R) (OK : list (arr R) -> Prop),
  (forall u1s, Forall2 (fun t u1 => as_component QL K QR (fst t) (snd t) u1) us u1s ->
     exists ms, raw u1s = Ok ms /\ Forall2 (fun m d => broadcasts_to (ash m) (QL ++ K :: QR ++ d)) ms ds /\
       forall ths, OK ths -> forall a k b, within a QL -> k < K -> within b QR ->
         L ths a k b = (lsum (map (fun p : (arr R * list nat) * arr R =>
            let '((m, d), th) := p in lsum (map (fun v => bget m (at_index (a ++ k :: b ++ v)) * bget th (at_index (a ++ k :: b ++ v)))%R (lists d)))
            (combine (combine ms ds) ths)) + rest a k b)%R) ->
  exists mx C, mixture_message_param raw Ok (length QR) (map (@length nat) ds) (map (fun t => (length (fst t), snd t)) us) z = Ok mx /\
    forall ths, OK ths -> length ths = length ds ->
      lsum (map (fun b => lsum (map (fun a => rsum K (fun k => prob z a b k * L ths a k b)%R) (lists QL))) (lists QR)) =
      (lsum (map (fun p : (arr R * list nat) * arr R => let '((m, d), th) := p in total (QL ++ K :: QR ++ d) (fun e => bget m e * bget th e)%R)
             (combine (combine mx ds) ths)) + C)%R.
Proof.
  intros QL K QR z raw ds us HZ HU L rest OK HR.
  destruct (C19_message_parameter QL K QR z raw ds us HZ HU) as (u1s & ms & mx & Fu & Er & Em & L1 & L2 & H).
  { intros u1s Fu. destruct (HR u1s Fu) as (ms & E & F & _). exists ms. split; assumption. }
  destruct (HR u1s Fu) as (ms' & E' & F & AF). assert (ms' = ms) by congruence. subst ms'. clear E'.
  exists mx, (lsum (map (fun b => lsum (map (fun a => rsum K (fun k => prob z a b k * rest a k b)%R) (lists QL))) (lists QR))).
  split; [exact Em|]. intros ths HO LT.
  transitivity (lsum (map (fun b => lsum (map (fun a => rsum K (fun k => prob z a b k *
     lsum (map (fun p : (arr R * list nat) * arr R =>
            let '((m, d), th) := p in lsum (map (fun v => bget m (at_index (a ++ k :: b ++ v)) * bget th (at_index (a ++ k :: b ++ v)))%R (lists d)))
            (combine (combine ms ds) ths)))%R) (lists QL))) (lists QR)) +
    lsum (map (fun b => lsum (map (fun a => rsum K (fun k => prob z a b k * rest a k b)%R) (lists QL))) (lists QR)))%R.
  { rewrite <- lsum_map_plus. apply lsum_map_ext. intros b Hb. apply in_lists in Hb. rewrite <- lsum_map_plus. apply lsum_map_ext. intros a Ha. apply in_lists in Ha.
    rewrite <- rsum_plus. apply rsum_ext. intros k Hk. rewrite AF by assumption. ring. }
  f_equal. clear -H L1 L2 LT. revert ms mx ths L1 L2 LT H.
  induction ds as [|d ds IH]; intros [|m ms] [|m' mx] [|th ths] L1 L2 LT H; cbn [length] in *; try discriminate.
  - cbn [combine map]. change (lsum []) with 0%R. apply lsum_map_zero. intros b _. apply lsum_map_zero. intros a _.
    transitivity (rsum K (fun _ => 0%R)); [|apply rsum_0]. apply rsum_ext. intros. ring.
  - cbn [combine map]. change (lsum (?p :: ?q)) with (p + lsum q)%R.
    rewrite <- (IH ms mx ths) by (first [lia | intros i x0 x1 x2 Q1 Q2 Q3; exact (H (S i) x0 x1 x2 Q1 Q2 Q3)]).
    destruct (H 0 m' m d eq_refl eq_refl eq_refl) as (BM & GM). rewrite total4.
    rewrite (lsum_swap _ _ (fun v r => rsum K (fun k => lsum (map (fun a => bget m' (at_index (a ++ k :: r ++ v)) * bget th (at_index (a ++ k :: r ++ v)))%R (lists QL))))).
    rewrite <- lsum_map_plus. apply lsum_map_ext. intros b Hb. apply in_lists in Hb.
    transitivity (lsum (map (fun a => rsum K (fun k => prob z a b k * lsum (map (fun v => bget m (at_index (a ++ k :: b ++ v)) * bget th (at_index (a ++ k :: b ++ v)))%R (lists d)))%R) (lists QL)) +
      lsum (map (fun a => rsum K (fun k => prob z a b k * lsum (map (fun p : (arr R * list nat) * arr R =>
            let '((m, d), th) := p in lsum (map (fun v => bget m (at_index (a ++ k :: b ++ v)) * bget th (at_index (a ++ k :: b ++ v)))%R (lists d)))
            (combine (combine ms ds) ths)))%R) (lists QL)))%R.
    { rewrite <- lsum_map_plus. apply lsum_map_ext. intros a _. rewrite <- rsum_plus. apply rsum_ext. intros k _. ring. }
    f_equal. rewrite lsum_rsum. rewrite lsum_rsum. apply rsum_ext. intros k Hk.
    transitivity (lsum (map (fun a => lsum (map (fun v => bget m' (at_index (a ++ k :: b ++ v)) * bget th (at_index (a ++ k :: b ++ v)))%R (lists d))) (lists QL))).
    + apply lsum_map_ext. intros a Ha. apply in_lists in Ha. rewrite lsum_scal. apply lsum_map_ext. intros v Hv. apply in_lists in Hv.
      rewrite GM by assumption. ring.
    + apply lsum_swap.
Qed.

(** Masks and plates: every component of a used plate is used; the cluster axis is inserted
    and removed at the same place, before and after the mixed distribution's own maps. *)
Theorem C19_mixture_mask : forall QL K QR (raw : arr bool -> res (arr bool)) (w : arr bool) i, broadcasts_to (ash w) (QL ++ QR) ->
  mixture_weights raw 0 (length QR) w = Ok w /\
  exists y, mixture_weights raw (S i) (length QR) w = raw y /\ broadcasts_to (ash y) (QL ++ K :: QR) /\
    forall l k r, within l QL -> k < K -> within r QR -> bget y (at_index (l ++ k :: r)) = bget w (at_index (l ++ r)).
Proof.
  intros QL K QR raw w i HW. split; [reflexivity|]. destruct (C18_gate_mask QL K QR w HW) as (_ & y & E & H). exists y. split; [|exact H].
  cbn [gate_weights] in E. injection E as <-. cbn [mixture_weights]. unfold np_expand_dims. destruct (Nat.leb_spec (length QR + 1) (ndim w)); [|reflexivity].
  destruct (Nat.leb_spec (length QR) (ndim w)); [reflexivity|lia].
Qed.

Theorem C19_mixture_plates : forall QL K QR raw i,
  mixture_plates_to raw 0 (length QR) K (QL ++ QR) = Ok (QL ++ QR) /\
  mixture_plates_to raw (S i) (length QR) K (QL ++ QR) = raw (QL ++ K :: QR) /\
  mixture_plates_from raw 0 (length QR) (QL ++ QR) = Ok (QL ++ QR) /\
  forall ps, raw ps = Ok (QL ++ K :: QR) -> mixture_plates_from raw (S i) (length QR) ps = Ok (QL ++ QR).
Proof.
  intros QL K QR raw i. destruct (C18_gate_plates QL K QR) as (_ & _ & E1 & _ & E2). cbn [gate_plates_to gate_plates_from] in E1, E2. injection E1 as E1.
  split; [reflexivity|]. split; [cbn [mixture_plates_to]; now rewrite E1|]. split; [reflexivity|].
  intros ps HP. cbn [mixture_plates_from]. rewrite HP. exact E2.
Qed.

Lemma drop_last : forall (x : arr R), 1 <= ndim x -> ax (ash x) 0 = 1 ->
  ndim (drop_axes x [0]) = ndim x - 1 /\ (forall k, ax (ash (drop_axes x [0])) k = ax (ash x) (S k)) /\
  forall e k, bget (drop_axes x [0]) e = bget x (ins 0 k e).
Proof.
  intros x N H. change [0] with (seq 0 1).
  assert (A : forall k, ax (ash (drop_axes x (seq 0 1))) k = ax (ash x) (S k)).
  { intros k. unfold drop_axes. rewrite kept_low by lia. cbn [ash]. rewrite ax_mkshape, seq_length. destruct (Nat.ltb_spec k (ndim x - 1)).
    - rewrite seq_nth by assumption. f_equal.
    - symmetry. apply ax_overflow. unfold ndim in *. lia. }
  split; [|split; [exact A|]].
  - unfold drop_axes, ndim at 1. cbn [ash]. rewrite length_mkshape, kept_low by lia. apply seq_length.
  - intros e k. unfold bget at 1. unfold drop_axes at 1. cbn [aget]. rewrite kept_low by lia. apply bget_ext. intros j Hj Hn. fold (ndim x) in Hj. destruct j as [|j]; [contradiction|].
    unfold assign. rewrite index_of_seq. destruct (Nat.leb_spec 1 (S j)); [|lia]. destruct (Nat.ltb_spec (S j) (1 + (ndim x - 1))); [|lia]. cbn [andb].
    unfold clip. rewrite A. replace (S (S j - 1)) with (S j) by lia. destruct (Nat.eqb_spec (ax (ash x) (S j)) 1); [contradiction|]. unfold ins. cbn. f_equal.
Qed.

Lemma rsum_term_le : forall n (h : nat -> R) k, k < n -> (forall j, j < n -> (0 <= h j)%R) -> (h k <= rsum n h)%R.
Proof.
  induction n as [|n IH]; intros h k Hk NN; [lia|]. cbn [rsum]. destruct (Nat.eq_dec k n) as [->|N].
  - assert (0 <= rsum n h)%R by (apply rsum_nonneg; intros; apply NN; lia). lra.
  - assert (h k <= rsum n h)%R by (apply IH; [lia|intros; apply NN; lia]). pose proof (NN n ltac:(lia)). lra.
Qed.

(** The predictive density with the assignments summed out (clusters on the last axis):
    log sum_k p_k exp(E[log p(x | theta_k)]). *)
Theorem C19_predictive_density : forall Q K (z g f : arr R) l, probs_ok Q K [] z ->
  broadcasts_to (ash g) (Q ++ [K]) -> broadcasts_to (ash f) Q -> Forall (term_ok Q K []) l -> 1 <= K ->
  (forall a, within a Q -> (0 < rsum K (fun k => prob z a [] k))%R) -> (forall a k, within a Q -> k < K -> (0 <= prob z a [] k)%R) ->
  exists y, integrated_logpdf 0 z g f (map term_of l) = Ok y /\ broadcasts_to (ash y) Q /\
    forall a, within a Q -> bget y (at_index a) =
      ln (rsum K (fun k => prob z a [] k * exp (component_logpdf g l a k [] + bget f (at_index a)))%R).
Proof.
  intros Q K z g f l (Z1 & Z2 & Z3) HG HF HL K1 PS PP. unfold integrated_logpdf.
  assert (HF' : broadcasts_to (ash f) (Q ++ [] ++ [])) by (cbn [app]; now rewrite app_nil_r).
  destruct (expand_u_ok Q K [] [] f HF') as (FB & _ & FG); [split; cbn; lia|cbn; lia|]. cbn [length Nat.add app] in FB, FG.
  unfold np_expand_dims at 1. cbn [Nat.leb bind]. set (f1 := expand_at f 0) in *.
  assert (U : exists us, mapM (fun t : nat * arr R * arr R => let '(nd, phi, u) := t in u1 <- np_expand_dims u (0 + nd) ;; Ok (nd, phi, u1)) (map term_of l) = Ok (map term_of us) /\
     Forall2 (fun t s => t_dims s = t_dims t /\ t_phi s = t_phi t /\ broadcasts_to (ash (t_u s)) (Q ++ K :: t_dims t) /\ full_dims (t_dims t) (t_u s) /\
       forall a k v, length v = length (t_dims t) -> bget (t_u s) (at_index (a ++ k :: v)) = bget (t_u t) (at_index (a ++ v))) l us).
  { clear -HL. induction HL as [|t l (T1 & T2 & T3) HL (us & E & F)]; [exists []; split; [reflexivity|constructor]|].
    destruct (expand_u_ok Q K [] (t_dims t) (t_u t) T2 T3) as (Bu & Fu & Gu); [cbn; apply T3|]. cbn [length Nat.add app] in Bu, Fu, Gu.
    exists (Term (t_dims t) (t_phi t) (expand_at (t_u t) (length (t_dims t))) :: us). cbn [map mapM]. unfold term_of at 1. cbn [Nat.add]. unfold np_expand_dims at 1.
    destruct T3 as [T3 _]. destruct (Nat.leb_spec (length (t_dims t)) (ndim (t_u t))); [|lia]. cbn [bind].
    change (fun t : nat * arr R * arr R => let '(nd, phi, u) := t in u1 <- np_expand_dims u (0 + nd) ;; Ok (nd, phi, u1)) with
           (fun t : nat * arr R * arr R => let '(nd, phi, u) := t in u1 <- np_expand_dims u nd ;; Ok (nd, phi, u1)) in E. rewrite E. cbn [bind].
    split; [reflexivity|]. constructor; [|exact F]. cbn [t_dims t_phi t_u]. split; [reflexivity|]. split; [reflexivity|]. split; [exact Bu|]. split; [exact Fu|].
    intros a k v Lv. exact (Gu a k [] v eq_refl Lv). }
  destruct U as (us & Eu & Fu). rewrite Eu. cbn [bind].
  destruct (logpdf_ok (Q ++ [K]) us g f1 HG FB) as (L & EL & BL & _ & NL & GL).
  { clear -Fu HL. revert HL. induction Fu as [|t s l us (F1 & F2 & F3 & F4 & F5) F IH]; intros HL; [constructor|].
    inversion HL as [|? ? (T1 & T2 & T3) HL']; subst. constructor; [|now apply IH]. rewrite F1, F2, <- app_assoc. split; [exact T1|]. split; assumption. }
  rewrite EL. cbn [bind].
  assert (GL' : forall a k, within a Q -> k < K -> bget L (at_index (a ++ [k])) = (component_logpdf g l a k [] + bget f (at_index a))%R).
  { intros a k Ha Hk. rewrite GL by (apply F2_app; [exact Ha|constructor; [exact Hk|constructor]]).
    unfold component_logpdf. pose proof (FG a k [] [] eq_refl eq_refl) as FG'. cbn [app] in FG'. rewrite !app_nil_r in FG'. rewrite FG'.
    rewrite Rplus_assoc, Rplus_assoc. f_equal. rewrite Rplus_comm. f_equal.
    clear -Fu. induction Fu as [|t s l us (F1 & F2 & F3 & F4 & F5) F IH]; [reflexivity|]. cbn [map].
    change (lsum (?p :: ?q)) with (p + lsum q)%R. rewrite IH. f_equal. rewrite F1. apply lsum_map_ext. intros v Hv. apply in_lists in Hv.
    rewrite F2, <- !app_assoc. cbn [app]. rewrite F5 by (eapply F2_length; exact Hv). reflexivity. }
  assert (N1 : 1 <= ndim L).
  { unfold f1 in NL. rewrite ndim_expand_at in NL. lia. }
  assert (AL : ax (ash L) 0 <> 0).
  { destruct BL as [_ BL]. specialize (BL 0). rewrite ax_last in BL. cbn [Nat.eqb] in BL. lia. }
  unfold np_max_keep. destruct (Nat.eqb_spec (ax (ash L) 0) 0); [contradiction|]. destruct (Nat.leb_spec (ndim L) 0); [lia|]. cbn [orb bind].
  set (mx := Arr (mkshape (ndim L) (fun j => if j =? 0 then 1 else ax (ash L) j)) _).
  assert (MA : forall j, ax (ash mx) j = if j =? 0 then 1 else ax (ash L) j).
  { intros j. unfold mx. cbn [ash]. rewrite ax_mkshape. destruct (Nat.ltb_spec j (ndim L)); [reflexivity|]. destruct (Nat.eqb_spec j 0); [reflexivity|].
    symmetry. apply ax_overflow. unfold ndim in *. lia. }
  assert (MN : ndim mx = ndim L) by (unfold ndim at 1, mx; cbn [ash]; apply length_mkshape).
  assert (MB : broadcasts_to (ash mx) (Q ++ [K])).
  { destruct BL as [B1 B2]. split; [fold (ndim mx); rewrite MN; exact B1|]. intros j. rewrite MA. destruct (j =? 0); [now left|apply B2]. }
  clearbody mx. destruct (map2_upper _ _ _ Rminus L mx _ BL MB) as (d & Ed & Nd & Bd & Gd). rewrite Ed. cbn [bind].
  assert (ND : 1 <= ndim (np_map exp d)).
  { destruct Nd as (Nd & _). specialize (Nd (ash L) ltac:(now left)). unfold ndim in *. cbn. lia. }
  destruct (moveaxis_last _ (np_map exp d) ND) as (pdf & Ep & Lp & Ap & Gp). rewrite Ep. cbn [bind].
  assert (PB : broadcasts_to (ash pdf) (Q ++ [K])).
  { destruct Bd as [B1 B2]. split; [fold (ndim pdf); rewrite Lp; exact B1|]. intros j. rewrite Ap. apply B2. }
  rewrite app_nil_r in Z1. destruct (map2_upper _ _ _ Rmult pdf z _ PB Z1) as (w & Ew & Nw & Bw & Gw). unfold np_multiply. rewrite Ew. cbn [bind].
  assert (NW : 1 <= ndim w).
  { destruct Nw as (Nw & _). specialize (Nw (ash z) ltac:(right; now left)). unfold ndim in *. lia. }
  destruct (Nat.leb_spec (ndim w) 0); [lia|].
  assert (AW : ax (ash w) 0 = K).
  { destruct Nw as (_ & _ & N3). destruct (N3 0) as [M1 _]. specialize (M1 (ash z) ltac:(right; now left)). rewrite Z3 in M1.
    destruct M1 as [M1|M1]; [|congruence]. destruct Bw as [_ Bw]. specialize (Bw 0). rewrite ax_last in Bw. cbn [Nat.eqb] in Bw. destruct Bw; congruence. }
  destruct (np_sum_trailing w [K]) as (S1 & S2 & S3); [cbn; lia|intros k Hk; cbn in Hk; replace k with 0 by lia; exact AW|].
  cbn [length seq] in S1, S2, S3. set (s := np_sum w [0]) in *.
  destruct (drop_last mx ltac:(lia) (MA 0)) as (D1 & D2 & D3). set (m1 := drop_axes mx [0]) in *.
  assert (SB : broadcasts_to (ash s) Q).
  { destruct Bw as [B1 B2]. rewrite app_length in B1. cbn [length] in B1. split; [fold (ndim s); unfold ndim in *; lia|]. intros k. rewrite S2, Nat.add_1_r.
    specialize (B2 (S k)). rewrite ax_last in B2. cbn [Nat.eqb] in B2. now replace (S k - 1) with k in B2 by lia. }
  assert (M1B : broadcasts_to (ash m1) Q).
  { destruct MB as [B1 B2]. rewrite app_length in B1. cbn [length] in B1. split; [fold (ndim m1); unfold ndim in *; lia|]. intros k. rewrite D2.
    specialize (B2 (S k)). rewrite ax_last in B2. cbn [Nat.eqb] in B2. now replace (S k - 1) with k in B2 by lia. }
  destruct (map2_upper _ _ _ (fun s m => ln s + m)%R s m1 Q SB M1B) as (y & Ey & _ & By & Gy). exists y. split; [exact Ey|]. split; [exact By|].
  intros a Ha. rewrite Gy, S3, total_one. set (M := bget m1 (at_index a)).
  assert (EW : forall k, k < K -> bget w (join 1 (at_index a) (upd env0 0 k)) = (exp (- M) * (prob z a [] k * exp (component_logpdf g l a k [] + bget f (at_index a))))%R).
  { intros k Hk. rewrite join_ins, Gw, Gp, bget_map, Gd. rewrite <- (D3 (at_index a) k). fold M. rewrite <- at_ins_last, GL' by assumption.
    unfold Rminus. rewrite exp_plus. unfold prob. rewrite app_nil_r. ring. }
  rewrite (rsum_ext _ _ _ EW), rsum_scal.
  assert (POS : (0 < rsum K (fun k => prob z a [] k * exp (component_logpdf g l a k [] + bget f (at_index a))))%R).
  { assert (NN : forall k, k < K -> (0 <= prob z a [] k * exp (component_logpdf g l a k [] + bget f (at_index a)))%R).
    { intros k Hk. apply Rmult_le_pos; [now apply PP|]. left. apply exp_pos. }
    destruct (rsum_nonneg K _ NN) as [P|P]; [exact P|]. exfalso.
    assert (ZZ : forall k, k < K -> prob z a [] k = 0%R).
    { intros k Hk. assert (T : (prob z a [] k * exp (component_logpdf g l a k [] + bget f (at_index a)) = 0)%R).
      { apply Rle_antisym; [|now apply NN]. rewrite P. exact (rsum_term_le K _ k Hk NN). }
      apply Rmult_integral in T as [T|T]; [exact T|]. pose proof (exp_pos (component_logpdf g l a k [] + bget f (at_index a))). lra. }
    pose proof (PS a Ha) as PSa. rewrite (rsum_ext K (fun k => prob z a [] k) (fun _ => 0%R) ZZ), rsum_0 in PSa. lra. }
  pose proof (ln_mult _ _ (exp_pos (- M)) POS) as LM. rewrite LM, ln_exp. lra.
Qed.

(** Clusters on the second-last axis: after the cluster axis has been moved last, the sum is
    still taken over the second-last axis.  With K components over M plates, M <> K, it
    raises. *)
Theorem C19_predictive_density_refuted : forall K M (z g f phi u : arr R),
  ash z = [M; K] -> ash g = [K; M] -> ash phi = [K; M] -> ash f = [M] -> ash u = [M] -> 1 < K -> 1 < M -> K <> M ->
  probs_ok [] K [M] z /\ Forall (term_ok [] K [M]) [Term [] phi u] /\
  integrated_logpdf 1 z g f (map term_of [Term [] phi u]) = Err ValueError.
Proof.
  intros K M z g f phi u Hz Hg Hp Hf Hu HK HM HN.
  assert (FU : forall x : arr R, full_dims [] x) by (intros x; split; cbn; lia).
  split. { split; [rewrite Hz; apply broadcasts_to_refl|]. unfold ndim. rewrite Hz. split; [cbn; lia|reflexivity]. }
  split. { constructor; [|constructor]. split; [cbn; rewrite Hp; apply broadcasts_to_refl|]. split; [cbn; rewrite Hu; apply broadcasts_to_refl|apply FU]. }
  unfold integrated_logpdf. cbn [map term_of mapM t_dims t_phi t_u length Nat.add].
  assert (X : forall x : arr R, ash x = [M] -> np_expand_dims x 1 = Ok (expand_at x 1) /\ broadcasts_to (ash (expand_at x 1)) [K; M] /\ full_dims [] (expand_at x 1)).
  { intros x Hx. unfold np_expand_dims, ndim. rewrite Hx. split; [reflexivity|].
    destruct (expand_u_ok [] K [M] [] x) as (A & _); [rewrite Hx; apply broadcasts_to_refl|apply FU|unfold ndim; rewrite Hx; cbn; lia|]. split; [exact A|apply FU]. }
  destruct (X f Hf) as (Ef & Bf & _), (X u Hu) as (Eu & Bu & _). rewrite Ef. cbn [bind]. rewrite Eu. cbn [bind].
  assert (Bg : broadcasts_to (ash g) [K; M]) by (rewrite Hg; apply broadcasts_to_refl).
  assert (Bp : broadcasts_to (ash phi) [K; M]) by (rewrite Hp; apply broadcasts_to_refl).
  destruct (logpdf_ok [K; M] [Term [] phi (expand_at u 1)] g (expand_at f 1) Bg Bf) as (L & EL & BL & NL & _ & _).
  { constructor; [|constructor]. cbn [t_phi t_u t_dims]. rewrite app_nil_r. split; [exact Bp|]. split; [exact Bu|apply FU]. }
  change (map term_of [Term [] phi (expand_at u 1)]) with [(0, phi, expand_at u 1)] in EL. rewrite EL. cbn [bind].
  assert (SL : ash L = [K; M]).
  { unfold compute_logpdf in EL. apply bind_ok in EL as (L0 & E0 & EL). cbn [foldM] in EL. apply bind_ok in EL as (w & Ew & EL).
    apply np_map2_ok in E0 as [(P1 & P2 & P3) _]. rewrite Hg in P1, P3.
    apply bind_ok in Ew as (w0 & Ew0 & Ew). apply bind_ok in Ew as (m & Em & Ew). cbn [Nat.leb] in Ew. apply np_map2_ok in Ew as [(R1 & R2 & R3) _].
    injection EL as <-.
    assert (N2 : ndim w = 2). { destruct BL as [B1 _]. unfold ndim in *. rewrite Hg in NL. cbn in *. lia. }
    assert (AA : forall j, ax (ash w) j = ax [K; M] j).
    { intros j. destruct BL as [_ B2]. destruct (R3 j) as [R3a _]. specialize (R3a (ash L0) ltac:(now left)).
      destruct (P3 j) as [P3a _]. specialize (P3a [K; M] ltac:(now left)). specialize (B2 j). destruct B2, R3a, P3a; congruence. }
    apply shape2; [exact N2|apply AA|apply AA]. }
  unfold np_max_keep. rewrite SL. unfold ndim. rewrite SL. change (ax [K; M] 1) with K. cbn [length Nat.leb].
  destruct (Nat.eqb_spec K 0); [lia|]. cbn [orb bind].
  set (mx := Arr (mkshape 2 (fun j => if j =? 1 then 1 else ax [K; M] j)) _).
  assert (SM : ash mx = [1; M]) by reflexivity. clearbody mx.
  assert (BM : broadcasts_to (ash mx) [K; M]).
  { rewrite SM. split; [cbn; lia|]. intros [|[|j]]; [right; reflexivity|left; reflexivity|left]. apply ax_overflow. cbn. lia. }
  assert (S2 : forall (h : R -> R -> R) (a b y : arr R) s, ash a = s -> broadcasts_to (ash b) s -> np_map2 h a b = Ok y -> ash y = s).
  { clear. intros h a b y s <- B E. unfold np_map2 in E. rewrite np_bshape_eq in E.
    assert (Q : broadcasted_shape [ash a; ash b] = Ok (ash a)).
    { rewrite (broadcasted_shape_in_ext _ [ash b; ash a]) by (intros x; simpl; tauto). apply subset_iff_absorb, is_shape_subset_spec, B. }
    rewrite Q in E. cbn [bind] in E. injection E as <-. reflexivity. }
  destruct (map2_upper _ _ _ Rminus L mx [K; M] BL BM) as (d & Ed & _). rewrite Ed. cbn [bind]. pose proof (S2 _ _ _ _ _ SL BM Ed) as Sd.
  destruct (moveaxis_env _ (np_map exp d) 1 0) as (pdf & Ep & Lp & Ap & _); [unfold ndim; cbn; rewrite Sd; cbn; lia|unfold ndim; cbn; rewrite Sd; cbn; lia|].
  rewrite Ep. cbn [bind].
  assert (Sp : ash pdf = [M; K]).
  { apply shape2; [rewrite Lp; unfold ndim; cbn; now rewrite Sd| |]; rewrite Ap; cbn [np_map ash]; rewrite Sd; reflexivity. }
  destruct (map2_upper _ _ _ Rmult pdf z [M; K]) as (w & Ew & _); [rewrite Sp; apply broadcasts_to_refl|rewrite Hz; apply broadcasts_to_refl|].
  unfold np_multiply. rewrite Ew. cbn [bind]. assert (Sw : ash w = [M; K]) by (eapply S2; [exact Sp|rewrite Hz; apply broadcasts_to_refl|exact Ew]).
  rewrite Sw. cbn [length Nat.leb].
  apply (bcast_err _ _ _ _ _ _ 0).
  - unfold np_sum, np_sum_keep, drop_axes, ndim. cbn [ash]. rewrite Sw. cbn. lia.
  - unfold drop_axes, ndim. rewrite SM. cbn. lia.
  - unfold np_sum, np_sum_keep, drop_axes, ndim. cbn [ash]. rewrite Sw, SM. cbn. exact HN.
Qed.

(** Four clusters on the middle axis of plates (5, 4, 2), or on the last axis of plates
    (5, 4); a vector-valued and a scalar term, with unit axes and non-constant parameters. *)
Ltac bc := apply is_shape_subset_spec; reflexivity.
Ltac dims := split; [cbn; lia|cbn; intros j Hj; first [lia | replace j with 0 by lia; reflexivity]].
Ltac tk := repeat match goal with |- Forall _ _ => constructor | |- term_ok _ _ _ _ => split; [bc|split; [bc|dims]]
  | |- _ /\ full_dims _ _ /\ _ => split; [bc|split; [dims|cbn; lia]] end.
Example C19_case_middle :
  let z := Arr [1; 2; 4] (fun e => if e 0 =? e 1 then 1%R else 0%R) in
  let g := Arr [4; 1] (fun e => INR (e 1)) in
  let l := [Term [3] (Arr [4; 2; 3] (fun e => INR (e 0 + e 2))) (Arr [5; 2; 3] (fun e => INR (e 2)));
            Term [] (Arr [4; 1] (fun e => INR (e 1))) (Arr [5; 2] (fun e => INR (e 0)))] in
  probs_ok [5] 4 [2] z /\ broadcasts_to (ash g) ([5] ++ 4 :: [2]) /\ Forall (term_ok [5] 4 [2]) l /\
  moments_ok [5] [2] (map (fun t => (t_dims t, t_u t)) l) /\
  component_logpdf g l [3] 1 [1] = 20%R.
Proof.
  cbv zeta. split; [split; [bc|split; [cbn; lia|reflexivity]]|]. split; [bc|]. split.
  { tk. }
  split.
  { unfold moments_ok. tk. }
  cbv - [Rplus Rmult IZR INR]. cbn [INR]. lra.
Qed.
Example C19_case_last :
  let z := Arr [5; 4] (fun e => if e 0 =? 1 then 1%R else 0%R) in
  let g := Arr [4] (fun e => INR (e 0)) in
  let l := [Term [3] (Arr [4; 3] (fun e => INR (e 0 + e 1))) (Arr [5; 3] (fun e => INR (e 1)));
            Term [] (Arr [5; 4] (fun e => INR (e 1))) (Arr [] (fun _ => 2%R))] in
  probs_ok [5] 4 [] z /\ broadcasts_to (ash g) ([5] ++ [4]) /\ Forall (term_ok [5] 4 []) l /\
  (forall a, within a [5] -> (0 < rsum 4 (fun k => prob z a [] k))%R) /\ (forall a k, within a [5] -> k < 4 -> (0 <= prob z a [] k)%R).
Proof.
  cbv zeta. split; [split; [bc|split; [cbn; lia|reflexivity]]|]. split; [bc|]. split.
  { tk. }
  split.
  - intros a Ha. inversion Ha as [|x n a' s Hx Ha']; subst. inversion Ha'; subst. cbv - [Rplus Rmult IZR INR Rlt]. lra.
  - intros a k Ha Hk. inversion Ha as [|x n a' s Hx Ha']; subst. inversion Ha'; subst. unfold prob, bget. cbn [aget]. match goal with |- context[if ?b then _ else _] => destruct b end; lra.
Qed.

Print Assumptions C19_mixture_parameters.
Print Assumptions C19_mixture_density.
Print Assumptions C19_message_z.
Print Assumptions C19_message_z_refuted.
Print Assumptions C19_message_parameter.
Print Assumptions C19_mixture_mask.
Print Assumptions C19_mixture_plates.
Print Assumptions C19_predictive_density.
Print Assumptions C19_predictive_density_refuted.
Print Assumptions C20_mixture_assignments.
Print Assumptions C20_mixture_parameter.
Print Assumptions C21_mixture.
