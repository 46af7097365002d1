(** SumMultiply: messages; the scale of Gaussian-gamma moments. *)
From Coq Require Import List Arith ZArith Lia Bool Reals Lra Permutation FunctionalExtensionality.
From Verif Require Import Base Shapes SpecShapes ShapesLemmas NumPy MiscArray SpecArray TensorLemmas
  EinsumLemmas EinsumGen PlateSumLemmas PlateSum2Lemmas ShapeOpsLemmas MessageLemmas SumMultiplyLemmas NetworkLemmas GateLemmas PGate ExpFamBound UpdateLemmas Dot SpecDot
  DotEinsum DotSum DotMessage DotAdjoint DotNode DotPart DotExpect DotInit DotFinal DotMoments ComputeMessage.
Import ListNotations.
Open Scope nat_scope.

Lemma var0 : forall P a, variable_of P [] a -> broadcasts_to (ash a) P.
Proof. intros P a (_ & _ & H). now rewrite app_nil_r in H. Qed.
Lemma variable_weaken : forall P pp d a, broadcasts_to pp P -> variable_of pp d a -> variable_of P d a.
Proof.
  intros P pp d a [H1 H2] (A1 & A2 & A3 & A4). split; [assumption|]. split; [assumption|]. split; [rewrite app_length in *; lia|].
  intros k. specialize (A4 k). rewrite ax_app in *. destruct (Nat.ltb_spec k (length d)); [assumption|].
  destruct A4 as [A4|A4]; [now left|]. rewrite A4. apply H2.
Qed.
Lemma shaped_weaken : forall gamma P pp d kind u, broadcasts_to pp P -> shaped gamma pp d kind u -> shaped gamma P d kind u.
Proof.
  intros gamma P pp d kind u Hb H. unfold shaped in *. destruct (is_delta kind), gamma, u; try contradiction;
    repeat match goal with |- _ /\ _ => split end; try (eapply variable_weaken; [exact Hb|]; tauto).
Qed.
Lemma shaped_mom_ok : forall gamma P d kind u, shaped gamma P d kind u -> mom_ok P d (is_delta kind) u.
Proof. intros gamma P d kind u H. unfold shaped in H. destruct (is_delta kind), gamma, u; try contradiction; cbn; tauto. Qed.
Lemma describes_shaped : forall gamma P d kind u dist, describes gamma P d kind u dist -> shaped gamma P d kind u.
Proof. intros gamma P d kind u dist (_ & _ & H). unfold shaped. destruct (is_delta kind), gamma, u; try contradiction; tauto. Qed.

Lemma np_map_id : forall (f : R -> R) (a : arr R) e, (forall x, f x = x) -> bget (np_map f a) e = bget a e.
Proof. intros. rewrite bget_map. apply H. Qed.

(** The moments of the scale: product of <tau>, sum of <log tau>. *)
Lemma scale_shaped : forall P ns us, Forall2 (fun (nd : shape * pkind) u => shaped true P (fst nd) (snd nd) u) ns us ->
  forall acc, broadcasts_to (ash (fst acc)) P -> broadcasts_to (ash (snd acc)) P ->
  exists x2 x3, foldM (fun acc p =>
           let '(u, is_const) := (p : pmom * bool) in
           if is_const then Ok (np_map (fun v => v * 1)%R (fst acc), np_map (fun v => v + 0)%R (snd acc))
           else a <- mom2 u ;; la <- mom3 u ;;
             x2 <- np_multiply (fst acc) a ;; x3 <- np_map2 Rplus (snd acc) la ;; Ok (x2, x3))
        acc (combine us (map (fun p : shape * pkind => is_delta (snd p)) ns)) = Ok (x2, x3) /\
    broadcasts_to (ash x2) P /\ broadcasts_to (ash x3) P /\
    forall e, bget x2 e = (bget (fst acc) e * lprod (map (fun u => bget (scale_moment u) e) us))%R /\
      bget x3 e = (bget (snd acc) e + lsum (map (fun u => bget (log_scale_moment u) e) us))%R.
Proof.
  intros P ns us H. induction H as [|[dims kind] u ns us H1 H2 IH]; intros acc A1 A2.
  - exists (fst acc), (snd acc). cbn [map combine foldM]. destruct acc as [a2 a3]. cbn [fst snd]. split; [reflexivity|]. split; [assumption|]. split; [assumption|].
    intros e. unfold lprod, lsum. cbn [fold_right]. split; ring.
  - cbn [map combine foldM fst snd] in *. unfold shaped in H1.
    destruct (is_delta kind) eqn:Ek.
    + destruct u as [x|? ?|? ? ? ?]; try contradiction. cbn [bind].
      destruct (IH (np_map (fun v => v * 1)%R (fst acc), np_map (fun v => v + 0)%R (snd acc))) as (x2 & x3 & E & B2 & B3 & HV); [exact A1|exact A2|].
      exists x2, x3. split; [exact E|]. split; [assumption|]. split; [assumption|]. intros e. destruct (HV e) as [V2 V3]. rewrite V2, V3.
      cbn [fst snd map scale_moment log_scale_moment]. change (lprod (?a :: ?l)) with (a * lprod l)%R. change (lsum (?a :: ?l)) with (a + lsum l)%R.
      rewrite !bget_map. cbn [bget scalar aget]. unfold bget, scalar. cbn [aget]. split; ring.
    + destruct u as [x|? ?|x xx a la]; try contradiction. destruct H1 as (_ & _ & Va & Vl). cbn [mom2 mom3 bind].
      destruct (map2_upper _ _ _ Rmult (fst acc) a P A1 (var0 P a Va)) as (y2 & E2 & _ & B2 & V2).
      destruct (map2_upper _ _ _ Rplus (snd acc) la P A2 (var0 P la Vl)) as (y3 & E3 & _ & B3 & V3).
      unfold np_multiply. rewrite E2. cbn [bind]. rewrite E3. cbn [bind].
      destruct (IH (y2, y3) B2 B3) as (x2 & x3 & E & C2 & C3 & HV). exists x2, x3. split; [exact E|]. split; [assumption|]. split; [assumption|].
      intros e. destruct (HV e) as [W2 W3]. rewrite W2, W3. cbn [fst snd map scale_moment log_scale_moment].
      change (lprod (?a :: ?l)) with (a * lprod l)%R. change (lsum (?a :: ?l)) with (a + lsum l)%R.
      rewrite V2, V3. split; ring.
Qed.

Lemma scalar_upper : forall (x : R) P, broadcasts_to (ash (scalar x)) P.
Proof. intros. split; [cbn; lia|]. intros k. left. apply ax_overflow. cbn; lia. Qed.

(** Messages from arrays over plates, without variable axes. *)
Lemma plate_message : forall arrays P pp, arrays <> [] -> broadcasts_to pp P -> (forall k, ax P k <> 0) ->
  (forall a, In a arrays -> broadcasts_to (ash a) P) ->
  exists y, compute_message arrays P pp 0 = Ok y /\ variable_of pp [] y /\
    forall v, variable_of pp [] v ->
      total P (fun e => prodf arrays e * bget v e)%R = total pp (fun e => bget y e * bget v e)%R.
Proof.
  intros arrays P pp Hne Hb Hnz HA.
  destruct (broadcast_exists_of_upper (map ash arrays) P) as [S HS].
  { intros s Hs. apply in_map_iff in Hs as [a [<- Ha]]. auto. }
  apply broadcasted_shape_ok in HS.
  assert (BS : broadcasts_to S P) by (apply (nb_upper _ _ _ HS); intros s Hs; apply in_map_iff in Hs as [a [<- Ha]]; auto).
  destruct BS as [BS1 BS2].
  destruct (compute_message_ok arrays P pp 0 S Hne Hb Hnz HS) as (y & Ey & By & _ & _ & Vy); [lia|intros k; rewrite Nat.add_0_r; apply BS2|lia|].
  exists y. split; [exact Ey|]. rewrite Nat.sub_0_r, skipn_all, app_nil_r in By. split.
  - split; [cbn; lia|]. split; [intros i Hi; cbn in Hi; lia|]. now rewrite app_nil_r.
  - intros v Hv. apply var0 in Hv. rewrite (total_fibres P pp) by assumption. apply total_ext. intros t Ht.
    assert (E : bget y t = fibre_sum P pp t (prodf arrays)).
    { assert (Ej : forall x : env, join 0 x (fun _ => 0) = x) by (intros x; apply functional_extensionality; intros k; unfold join; cbn; now rewrite Nat.sub_0_r).
      specialize (Vy t (fun _ => 0) Ht ltac:(intros; lia)). rewrite Ej in Vy. rewrite Vy. f_equal. apply functional_extensionality. intros i. now rewrite Ej. }
    rewrite E. rewrite <- (Rmult_comm (bget v t)).
    rewrite <- fibre_mul.
    + f_equal. apply functional_extensionality. intros i. ring.
    + assumption.
    + assumption.
    + intros k Hk. apply bget_indep. destruct Hv as [_ Hv]. destruct (Hv k); congruence.
Qed.

Lemma alphas_ok : forall P ns us, Forall2 (fun (nd : shape * pkind) u => shaped true P (fst nd) (snd nd) u) ns us ->
  mapM (fun p : pmom * bool => if snd p then Ok (scalar 1%R) else mom2 (fst p)) (combine us (map (fun p : shape * pkind => is_delta (snd p)) ns)) = Ok (map scale_moment us) /\
  forall a, In a (map scale_moment us) -> broadcasts_to (ash a) P.
Proof.
  intros P ns us H. induction H as [|[dims kind] u ns us H1 H2 [IH1 IH2]]; [split; [reflexivity|intros a []]|].
  unfold shaped in H1. cbn [map combine fst snd] in *. cbn [mapM]. cbn [fst snd]. destruct (is_delta kind), u; try contradiction.
  - cbn [bind]. rewrite IH1. cbn [bind]. split; [reflexivity|]. intros a [<-|Ha]; [apply scalar_upper|auto].
  - cbn [mom2 bind]. rewrite IH1. cbn [bind]. split; [reflexivity|]. intros a' [<-|Ha]; [cbn; apply var0; tauto|auto].
Qed.

Lemma combine_app : forall A B (a a' : list A) (b b' : list B), length a = length b -> combine (a ++ a') (b ++ b') = combine a b ++ combine a' b'.
Proof. intros A B a. induction a as [|x a IH]; intros a' [|y b] b' H; try discriminate; [reflexivity|]. cbn. f_equal. apply IH. now injection H. Qed.

Lemma prodf_cons : forall a l e, prodf (a :: l) e = (bget a e * prodf l e)%R.
Proof. reflexivity. Qed.
Lemma lsum_mid : forall a x b, lsum (a ++ x :: b) = (x + (lsum a + lsum b))%R.
Proof. intros a x b. unfold lsum. induction a as [|y a IH]; cbn [app fold_right]; [|rewrite IH]; ring. Qed.

Lemma broadcasts_trans : forall a b c, broadcasts_to a b -> broadcasts_to b c -> broadcasts_to a c.
Proof.
  intros a b c [H1 H2] [H3 H4]. split; [lia|]. intros k. destruct (H2 k) as [E|E]; [now left|]. rewrite E. apply H4.
Qed.

(** The two extra messages of Gaussian-gamma moments. *)
Lemma scale_messages : forall P pp ns1 dims kind ns2 us1 us2 m2 m3 mask, broadcasts_to pp P -> (forall k, ax P k <> 0) ->
  is_delta kind = false -> broadcasts_to (ash mask) P -> variable_of P [] m2 -> variable_of P [] m3 ->
  Forall2 (fun (nd : shape * pkind) u => shaped true P (fst nd) (snd nd) u) ns1 us1 ->
  Forall2 (fun (nd : shape * pkind) u => shaped true P (fst nd) (snd nd) u) ns2 us2 ->
  exists y2 y3,
    mapM (fun p : pmom * bool => if snd p then Ok (scalar 1%R) else mom2 (fst p))
      (combine (us1 ++ us2) (map (fun p : shape * pkind => is_delta (snd p)) (ns1 ++ ns2))) = Ok (map scale_moment (us1 ++ us2)) /\
    compute_message (m2 :: of_mask mask :: map scale_moment (us1 ++ us2)) P pp 0 = Ok y2 /\
    compute_message [m3; of_mask mask] P pp 0 = Ok y3 /\ variable_of pp [] y2 /\ variable_of pp [] y3 /\
    exists C, forall u, shaped true pp dims kind u -> forall g, sm_const g = map (fun p : shape * pkind => is_delta (snd p)) (ns1 ++ (dims, kind) :: ns2) ->
      exists x2 x3, sm_scale g (us1 ++ u :: us2) = Ok (x2, x3) /\ variable_of P [] x2 /\ variable_of P [] x3 /\
        total P (fun e => bget m2 e * (if bget mask e then 1 else 0) * bget x2 e)%R = total pp (fun e => bget y2 e * bget (scale_moment u) e)%R /\
        total P (fun e => bget m3 e * (if bget mask e then 1 else 0) * bget x3 e)%R = (total pp (fun e => bget y3 e * bget (log_scale_moment u) e) + C)%R.
Proof.
  intros P pp ns1 dims kind ns2 us1 us2 m2 m3 mask Hb Hnz Hk Hmask Hm2 Hm3 F1 F2.
  destruct (alphas_ok P (ns1 ++ ns2) (us1 ++ us2) (Forall2_app F1 F2)) as [A1 A2].
  destruct (plate_message (m2 :: of_mask mask :: map scale_moment (us1 ++ us2)) P pp) as (y2 & E2 & B2 & V2); try assumption; [discriminate| |].
  { intros a [<-|[<-|Ha]]; [now apply var0|assumption|auto]. }
  destruct (plate_message [m3; of_mask mask] P pp) as (y3 & E3 & B3 & V3); try assumption; [discriminate| |].
  { intros a [<-|[<-|[]]]; [now apply var0|assumption]. }
  exists y2, y3. split; [exact A1|]. split; [exact E2|]. split; [exact E3|]. split; [exact B2|]. split; [exact B3|].
  exists (total P (fun e => bget m3 e * (if bget mask e then 1 else 0) * (lsum (map (fun u => bget (log_scale_moment u) e) us1) + lsum (map (fun u => bget (log_scale_moment u) e) us2)))%R).
  intros u Hu g Hg. unfold sm_scale. rewrite Hg.
  assert (Fu : Forall2 (fun (nd : shape * pkind) u => shaped true P (fst nd) (snd nd) u) (ns1 ++ (dims, kind) :: ns2) (us1 ++ u :: us2)).
  { apply Forall2_app; [assumption|]. constructor; [|assumption]. cbn [fst snd]. exact (shaped_weaken true P pp dims kind u Hb Hu). }
  destruct (scale_shaped P _ _ Fu (scalar 1%R, scalar 0%R)) as (x2 & x3 & E & C2 & C3 & HV); [apply scalar_upper|apply scalar_upper|].
  exists x2, x3. split; [exact E|].
  assert (V0 : forall a : arr R, broadcasts_to (ash a) P -> variable_of P [] a).
  { intros a Ha. split; [cbn; lia|]. split; [intros i Hi; cbn in Hi; lia|]. now rewrite app_nil_r. }
  split; [now apply V0|]. split; [now apply V0|].
  assert (Us : variable_of pp [] (scale_moment u) /\ variable_of pp [] (log_scale_moment u)).
  { unfold shaped in Hu. rewrite Hk in Hu. destruct u; try contradiction. cbn. tauto. }
  destruct Us as [Us Ul]. split.
  - rewrite <- (V2 _ Us). apply total_ext. intros e _. destruct (HV e) as [-> _]. cbn [fst].
    rewrite !prodf_cons. unfold of_mask. rewrite bget_map. rewrite map_app. cbn [map].
    unfold prodf. rewrite map_map, map_app, !lprod_app. change (lprod (?a :: ?l)) with (a * lprod l)%R.
    unfold bget at 3. cbn [scalar aget]. ring.
  - rewrite <- (V3 _ Ul), <- total_add. apply total_ext. intros e _. destruct (HV e) as [_ ->]. cbn [snd].
    rewrite !prodf_cons. unfold of_mask. rewrite bget_map. rewrite map_app. cbn [map]. rewrite lsum_mid.
    unfold bget at 3. cbn [scalar aget]. change (prodf [] e) with 1%R. ring.
Qed.
