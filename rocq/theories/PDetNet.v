(** C25: networks with deterministic nodes.  VB.update never raises and never lowers the
    bound. *)
From Coq Require Import List Arith ZArith Lia Bool Reals Lra FunctionalExtensionality.
From Verif Require Import Base Shapes SpecShapes ShapesLemmas NumPy MiscArray TensorLemmas
  EinsumLemmas SumMultiplyLemmas SpecArray PlateSumLemmas PlateSum2Lemmas MessageLemmas
  ShapeOpsLemmas DiagLemmas ExpFam SpecExpFam ExpFamLemmas ExpFamBound ExpFamGrad PExpFam SpecUpdate
  UpdateLemmas PUpdate FamilyDist SpecFamilyDist PFamilyDist Network SpecNetwork NetworkLemmas NetworkLemmas2
  PNetwork PFamilyNet Dot SpecDot DetNet SpecDetNet DetNetLemmas DetNetLemmas2.
Import ListNotations.
Open Scope nat_scope.

Lemma lsum_single : forall n (f : nat -> R) k0, k0 < n -> (forall k, k < n -> k <> k0 -> f k = 0%R) ->
  lsum (map f (seq 0 n)) = f k0.
Proof.
  intros n f k0 Hk H. assert (G : forall l, NoDup l -> In k0 l -> (forall k, In k l -> k <> k0 -> f k = 0%R) -> lsum (map f l) = f k0).
  { clear. induction l as [|a l IH]; intros ND HI H; [destruct HI|]. inversion ND as [|? ? N ND']; subst. unfold lsum in *. cbn [map fold_right].
    destruct (Nat.eq_dec a k0) as [->|D].
    - replace (fold_right Rplus 0%R (map f l)) with 0%R; [ring|]. symmetry. apply (lsum_map_zero _ f l).
      intros k Hk. apply H; [now right|]. intros ->. contradiction.
    - destruct HI as [->|HI]; [congruence|]. rewrite (IH ND' HI) by (intros; apply H; [now right|assumption]). rewrite H by (try (now left); assumption). ring. }
  apply G; [apply seq_NoDup|apply in_seq; lia|]. intros k Hk' N. apply in_seq in Hk'. apply H; [lia|exact N].
Qed.
Lemma lsum_sub : forall A (f g : A -> R) l, (lsum (map f l) - lsum (map g l) = lsum (map (fun a => f a - g a) l))%R.
Proof. intros. induction l as [|a l IH]; unfold lsum in *; cbn; [lra|]. lra. Qed.

Section Net.
Variable net : dnet.
Variable T : types.

Definition contrib (st : nstate) (F : efam) (j : nat) : R :=
  (lprod (map INR (n_mult (st j))) * total (n_plates (st j)) (fun p => if bget (n_mask (st j)) p then
     terms F (at_plates (e_pdims F) (moms net st j) p) (at_plate (fam_dims (e_fam F)) (n_u (st j)) p)
     + rest (st j) p else 0))%R.
Definition contribution_at (st : nstate) (j : nat) : R :=
  match dt_kind net j with KStoch F => contrib st F j | KDet _ => 0%R end.
Definition whole_bound (st : nstate) : R := lsum (map (contribution_at st) (seq 0 (dt_size net))).

Lemma contrib_ok : forall nan st j F, dnet_ok net T st -> j < dt_size net -> dt_kind net j = KStoch F ->
  lower_bound_contribution (net_dist F (n_plates (st j))) nan (st j) (moms net st j) = Ok (contrib st F j).
Proof.
  intros nan st j F OK Hj EK. pose proof (do_node _ _ _ OK j F Hj EK) as N.
  pose proof (node_shaped _ _ _ (moms net st j) N) as B.
  rewrite (lower_bound_ok (net_dist F (n_plates (st j))) nan (st j) (moms net st j) _ _ eq_refl eq_refl B).
  unfold contrib. f_equal. f_equal. apply total_ext. intros p Hp. destruct (bget (n_mask (st j)) p); [|reflexivity].
  assert (Lu : length (n_u (st j)) = length (n_dims (st j))).
  { symmetry. apply (Forall2_len _ _ _ _ _ (moments_fit _ (nk_shaped _ _ _ N))). }
  rewrite plate_bound_eq; [|rewrite (nk_dims _ _ _ N); apply lift_arrays_length| |exact Lu].
  2:{ symmetry. apply (Forall2_len _ _ _ _ _ (nk_phi _ _ _ N)). }
  unfold terms, rest. rewrite (nk_dims _ _ _ N) in *. rewrite lift_dot; [|exact Hp| |exact Lu].
  2:{ apply (sy_phi _ _ _ _ _ (do_stoch _ _ _ OK j F Hj EK)). }
  assert (Ec : forall g : env -> R, bget (Arr (n_plates (st j)) g) p = g p).
  { intros g. unfold bget. cbn [ash aget]. now rewrite clip_valid_id by exact Hp. }
  rewrite !Ec. destruct (bget (n_obs (st j)) p); ring.
Qed.

Lemma bound_ok : forall nan st l, dnet_ok net T st -> (forall j, In j l -> j < dt_size net) ->
  dn_bound_sum net nan st l = Ok (lsum (map (contribution_at st) l)).
Proof.
  intros nan st l OK. induction l as [|j l IH]; intros H; [reflexivity|]. cbn [dn_bound_sum].
  assert (Hj : j < dt_size net) by (apply H; now left).
  replace (match dt_kind net j with KStoch F => _ | KDet _ => Ok 0%R end) with (Ok (contribution_at st j)).
  - cbn [bind]. rewrite IH by (intros; apply H; now right). reflexivity.
  - unfold contribution_at. destruct (dt_kind net j) as [F|D] eqn:EK; [|reflexivity].
    rewrite (from_parents_ok net T st j OK Hj). cbn [bind]. symmetry. now apply contrib_ok.
Qed.

(** ** The effect of a change of node [i] *)
Section Change.
Variables st st' : nstate.
Variable i : nat.
Hypothesis OK : dnet_ok net T st.
Hypothesis OK' : dnet_ok net T st'.
Hypothesis Hi : i < dt_size net.
Variable Fi : efam.
Hypothesis Ki : dt_kind net i = KStoch Fi.
Hypothesis Same : forall j, j <> i -> st' j = st j.
Hypothesis Place : forall j, place_of (st' j) = place_of (st j).

Lemma computed_dec : forall v, v < dt_size net -> computed_from net i v \/ ~ computed_from net i v.
Proof.
  intros v. induction (lt_wf v) as [v _ IH]. intros Hv.
  destruct (Nat.eq_dec v i) as [->|Nv]; [left; apply cf_self|].
  destruct (dt_kind net v) as [F|D] eqn:EK.
  - right. intros C. inversion C; congruence.
  - assert (G : forall l, (forall w, In w l -> In w (dt_parents net v)) ->
      (exists w, In w l /\ computed_from net i w) \/ (forall w, In w l -> ~ computed_from net i w)).
    { induction l as [|w l IHl]; intros Hl; [right; intros w []|].
      pose proof (do_order _ _ _ OK v w Hv (Hl w (or_introl eq_refl))) as Hw.
      destruct (IH w Hw ltac:(lia)) as [C|C]; [left; exists w; split; [now left|exact C]|].
      destruct (IHl (fun w Hw => Hl w (or_intror Hw))) as [(w' & A & B)|A].
      - left. exists w'. split; [now right|exact B].
      - right. intros w' [<-|Hw']; [exact C|now apply A]. }
    destruct (G (dt_parents net v) (fun w H => H)) as [(w & A & B)|A].
    + left. now apply (cf_step net i v D w).
    + right. intros C. inversion C as [|? D' w E1 E2 E3]; subst; [congruence|]. now apply (A w).
Qed.

Lemma mom_same : forall v, v < dt_size net -> ~ computed_from net i v -> mom net st' v = mom net st v.
Proof.
  intros v. induction (lt_wf v) as [v _ IH]. intros Hv NC.
  assert (Nv : v <> i) by (intros ->; apply NC, cf_self).
  destruct (dt_kind net v) as [F|D] eqn:EK.
  - rewrite !(mom_stoch net _ v F Hv EK). now rewrite Same.
  - assert (E : moms net st' v = moms net st v).
    { unfold moms. apply map_ext_in. intros w Hw. pose proof (do_order _ _ _ OK v w Hv Hw). apply IH; [lia|lia|].
      intros C. apply NC. now apply (cf_step net i v D w). }
    pose proof (mom_det net T st' v D OK' Hv EK) as A. pose proof (mom_det net T st v D OK Hv EK) as B. congruence.
Qed.

Definition delta (v : nat) : R :=
  (pairing (place_of (st v)) (msg net st v) (mom net st' v) - pairing (place_of (st v)) (msg net st v) (mom net st v))%R.
Definition dpart (v j k : nat) : R :=
  (pairing (place_of (st v)) (part net st j k v) (mom net st' v) - pairing (place_of (st v)) (part net st j k v) (mom net st v))%R.
Definition dparts (j : nat) : R :=
  lsum (map (fun k => dpart (nth k (dt_parents net j) 0) j k) (seq 0 (length (dt_parents net j)))).

Lemma dpart_zero : forall v j k, v < dt_size net -> ~ computed_from net i v -> dpart v j k = 0%R.
Proof. intros v j k Hv NC. unfold dpart. rewrite (mom_same v Hv NC). ring. Qed.

Lemma parent_lt : forall j k v, j < dt_size net -> nth_error (dt_parents net j) k = Some v -> v < j.
Proof. intros j k v Hj Hk. apply (do_order _ _ _ OK j v Hj (nth_error_In _ _ Hk)). Qed.

(** At most one parent of a node changes. *)
Lemma one_parent : forall j, j < dt_size net ->
  (dparts j = 0%R /\ moms net st' j = moms net st j /\
     forall k v, nth_error (dt_parents net j) k = Some v -> ~ computed_from net i v) \/
  (exists k v, nth_error (dt_parents net j) k = Some v /\ computed_from net i v /\ dparts j = dpart v j k /\
     exclude k (moms net st' j) = exclude k (moms net st j)).
Proof.
  intros j Hj.
  assert (G : forall l, (forall w, In w l -> w < dt_size net) ->
      (exists k v, nth_error l k = Some v /\ computed_from net i v) \/ (forall k v, nth_error l k = Some v -> ~ computed_from net i v)).
  { induction l as [|w l IHl]; intros Hl; [right; intros [|k] v; discriminate|].
    destruct (computed_dec w (Hl w (or_introl eq_refl))) as [C|C]; [left; exists 0, w; split; [reflexivity|exact C]|].
    destruct (IHl (fun w Hw => Hl w (or_intror Hw))) as [(k & v & A & B)|A].
    - left. exists (S k), v. split; [exact A|exact B].
    - right. intros [|k] v Hk; [cbn in Hk; injection Hk as <-; exact C|now apply (A k)]. }
  destruct (G (dt_parents net j)) as [(k & v & Hk & C)|NC].
  { intros w Hw. pose proof (do_order _ _ _ OK j w Hj Hw). lia. }
  - right. exists k, v. split; [exact Hk|]. split; [exact C|]. pose proof (parent_lt j k v Hj Hk) as Hv.
    assert (U : forall k' v', nth_error (dt_parents net j) k' = Some v' -> k' <> k -> ~ computed_from net i v').
    { intros k' v' Hk' N C'. apply N. apply (do_unique _ _ _ OK i Fi j k' k v' v Ki Hj Hk' Hk C' C). }
    split.
    + unfold dparts. rewrite (lsum_single _ _ k).
      * now rewrite (nth_error_nth _ _ _ Hk).
      * apply nth_error_Some. congruence.
      * intros k' Hk' N. assert (E : nth_error (dt_parents net j) k' = Some (nth k' (dt_parents net j) 0)) by now apply nth_error_nth'.
        apply dpart_zero; [pose proof (parent_lt j k' _ Hj E); lia|]. now apply (U k').
    + apply exclude_nth; [unfold moms; now rewrite !map_length|]. intros x Nx. unfold moms.
      destruct (nth_error (dt_parents net j) x) as [w|] eqn:Ex.
      * rewrite !(map_nth_error _ _ _ Ex). f_equal. apply mom_same; [pose proof (parent_lt j x w Hj Ex); lia|now apply (U x)].
      * transitivity (@None (list (arr R))); [|symmetry]; apply nth_error_None; rewrite map_length; now apply nth_error_None.
  - left. split; [|split].
    + unfold dparts. apply lsum_map_zero. intros k Hk. apply in_seq in Hk.
      assert (E : nth_error (dt_parents net j) k = Some (nth k (dt_parents net j) 0)) by (apply nth_error_nth'; lia).
      apply dpart_zero; [pose proof (parent_lt j k _ Hj E); lia|now apply (NC k)].
    + unfold moms. apply map_ext_in. intros w Hw. apply In_nth_error in Hw as [k Hk].
      apply mom_same; [pose proof (parent_lt j k _ Hj Hk); lia|now apply (NC k)].
    + exact NC.
Qed.

Lemma det_delta : forall j D, j < dt_size net -> dt_kind net j = KDet D -> delta j = dparts j.
Proof.
  intros j D Hj EK. pose proof (mom_det net T st j D OK Hj EK) as E. pose proof (mom_det net T st' j D OK' Hj EK) as E'.
  destruct (one_parent j Hj) as [(Z & EM & _)|(k & v & Hk & CV & Z & EX)]; rewrite Z.
  - rewrite EM in E'. unfold delta. replace (mom net st' j) with (mom net st j) by congruence. ring.
  - assert (LV : live net v) by now exists i, Fi.
    assert (LJ : live net j) by (exists i, Fi; split; [exact Ki|]; exact (cf_step net i j D v EK (nth_error_In _ _ Hk) CV)).
    destruct (msg_spec net T st j OK Hj LJ) as (_ & M & S & V & _).
    destruct (dy_msg _ _ _ _ _ _ (do_det _ _ _ OK j D Hj EK) k v (moms net st j) (msg net st j) Hk LV (moms_in net T st j OK Hj) M V S)
      as (y & Ey & My & _ & G).
    assert (EP : part net st j k v = y).
    { unfold part, part_res. rewrite EK. cbv beta in Ey. now rewrite Ey. }
    assert (MI : Forall2 (fun i u => moments_in (place_of (st i)) (t_mom T i) u) (dt_parents net j) (moms net st' j)).
    { pose proof (moms_in net T st' j OK' Hj) as MI. apply Forall2_of_nth; [apply (Forall2_len _ _ _ _ _ MI)|].
      intros x a b Ha Hb. rewrite <- Place. apply (Forall2_to_nth _ _ _ _ _ MI x a b Ha Hb). }
    specialize (G (moms net st' j) (mom net st j) (mom net st' j) MI EX E E').
    cbv beta in G.
    unfold delta, dpart. rewrite EP, G. unfold moms.
    now rewrite !(nth_error_nth _ _ _ (map_nth_error _ _ _ Hk)).
Qed.

Lemma stoch_delta : forall j F, j < dt_size net -> dt_kind net j = KStoch F -> j <> i ->
  (contrib st' F j - contrib st F j)%R = dparts j.
Proof.
  intros j F Hj EK Nj. pose proof (Same j Nj) as Ej.
  destruct (one_parent j Hj) as [(Z & EM & _)|(k & v & Hk & _ & Z & EX)]; rewrite Z.
  - unfold contrib. rewrite Ej, EM. ring.
  - destruct (stoch_part_ok net T st j F k v OK Hj EK Hk) as (y & Ey & My & _ & G).
    assert (EP : part net st j k v = y) by (unfold part, part_res; rewrite EK; now rewrite Ey).
    pose proof (parent_lt j k v Hj Hk) as Hv.
    assert (Fv : forall s, dnet_ok net T s -> place_of (s v) = place_of (st v) -> fits (n_plates (st v)) (n_dims (st v)) (mom net s v)).
    { intros s Os Ps. apply variable_fits. destruct (mom_spec net T s v Os ltac:(lia)) as [_ [V _]]. rewrite Ps in V. exact V. }
    unfold dpart. rewrite EP, (G _ (Fv st' OK' (Place v))), (G _ (Fv st OK eq_refl)).
    unfold contrib, stoch_part. rewrite Ej.
    destruct (do_link _ _ _ OK j F k v Hj EK Hk) as [L1 _ _ _].
    pose proof (do_arity _ _ _ OK j F Hj EK) as LP.
    assert (Kl : k < length (e_pdims F)) by (rewrite LP; apply nth_error_Some; congruence).
    assert (Hpd : nth_error (e_pdims F) k = Some (nth k (e_pdims F) [])) by now apply nth_error_nth'.
    rewrite (total_ext _ (fun p => if bget (n_mask (st j)) p then
       (terms F (at_plates (e_pdims F) (moms net st' j) p) (at_plate (fam_dims (e_fam F)) (n_u (st j)) p)
         + rest (st j) p)%R else 0%R)
      (fun p => 1 * (if bget (n_mask (st j)) p then
         terms F (at_plates (e_pdims F) (moms net st j) p) (at_plate (fam_dims (e_fam F)) (n_u (st j)) p)
         + rest (st j) p else 0)
       + (1 * (if bget (n_mask (st j)) p then fdot (nth k (e_pdims F) [])
             (e_message F k (at_plate (fam_dims (e_fam F)) (n_u (st j)) p)
               (exclude k (at_plates (e_pdims F) (moms net st j) p)))
             (at_plate (nth k (e_pdims F) []) (mom net st' v) p) else 0)
          + (-1) * (if bget (n_mask (st j)) p then fdot (nth k (e_pdims F) [])
             (e_message F k (at_plate (fam_dims (e_fam F)) (n_u (st j)) p)
               (exclude k (at_plates (e_pdims F) (moms net st j) p)))
             (at_plate (nth k (e_pdims F) []) (mom net st v) p) else 0)))%R).
    + rewrite !total_lin, total_scal. ring.
    + intros p Hp. destruct (bget (n_mask (st j)) p); [|ring].
      destruct (own_at net T st j F p OK Hj EK Hp) as [X1 X2].
      assert (Hp' : valid (n_plates (st' j)) p) by now rewrite Ej.
      assert (C2 : exclude k (at_plates (e_pdims F) (moms net st j) p) = exclude k (at_plates (e_pdims F) (moms net st' j) p)).
      { rewrite <- !exclude_at_plates by (unfold moms; now rewrite map_length). now rewrite EX. }
      pose proof (sy_conj _ _ _ _ _ (do_stoch _ _ _ OK j F Hj EK) k (at_plate (fam_dims (e_fam F)) (n_u (st j)) p)
        (at_plates (e_pdims F) (moms net st j) p) (at_plates (e_pdims F) (moms net st' j) p) Kl
        (parents_at net T st j F p OK Hj EK Hp) (parents_at net T st' j F p OK' Hj EK Hp') X1 X2 C2) as C.
      cbv zeta in C.
      rewrite (nth_error_nth _ _ _ (at_plates_nth _ _ p k _ _ Hpd (map_nth_error (mom net st) k _ Hk))) in C.
      rewrite (nth_error_nth _ _ _ (at_plates_nth _ _ p k _ _ Hpd (map_nth_error (mom net st') k _ Hk))) in C.
      unfold terms. lra.
Qed.

Lemma sum_children : forall (h : nat -> nat -> nat -> R),
  lsum (map (fun v => lsum (map (fun jk => h v (fst jk) (snd jk)) (dchildren net v))) (seq 0 (dt_size net))) =
  lsum (map (fun j => lsum (map (fun k => h (nth k (dt_parents net j) 0) j k) (seq 0 (length (dt_parents net j)))))
    (seq 0 (dt_size net))).
Proof.
  intros h.
  transitivity (lsum (map (fun v => lsum (map (fun j => lsum (map (fun k =>
     if nth k (dt_parents net j) 0 =? v then h v j k else 0%R) (seq 0 (length (dt_parents net j))))) (seq 0 (dt_size net)))) (seq 0 (dt_size net)))).
  - f_equal. apply map_ext. intros v. unfold dchildren. rewrite NetworkLemmas.lsum_flat_map. f_equal. apply map_ext. intros j.
    rewrite map_map. cbn [fst snd]. now rewrite <- (lsum_filter _ (fun k => h v j k)).
  - rewrite (lsum_swap _ _ (fun v j => lsum (map (fun k =>
     if nth k (dt_parents net j) 0 =? v then h v j k else 0%R) (seq 0 (length (dt_parents net j)))))).
    f_equal. apply map_ext_in. intros j Hj. apply in_seq in Hj.
    rewrite (lsum_swap _ _ (fun v k => if nth k (dt_parents net j) 0 =? v then h v j k else 0%R)).
    f_equal. apply map_ext_in. intros k Hk. apply in_seq in Hk.
    assert (E : nth_error (dt_parents net j) k = Some (nth k (dt_parents net j) 0)) by (apply nth_error_nth'; lia).
    rewrite (lsum_single _ _ (nth k (dt_parents net j) 0)).
    + now rewrite Nat.eqb_refl.
    + pose proof (parent_lt j k _ ltac:(lia) E). lia.
    + intros v Hv N. destruct (Nat.eqb_spec (nth k (dt_parents net j) 0) v); [congruence|reflexivity].
Qed.

(** The change of the other nodes' contributions is what the message to [i] says. *)
Lemma bound_change :
  (whole_bound st' - whole_bound st = (contrib st' Fi i - contrib st Fi i) + delta i)%R.
Proof.
  assert (A : lsum (map delta (seq 0 (dt_size net))) = lsum (map dparts (seq 0 (dt_size net)))).
  { unfold dparts. rewrite <- (sum_children dpart). f_equal. apply map_ext_in. intros v Hv. apply in_seq in Hv.
    destruct (computed_dec v ltac:(lia)) as [CV|NC].
    2:{ unfold delta. rewrite (mom_same v ltac:(lia) NC), Rminus_diag_eq by reflexivity.
        symmetry. apply lsum_map_zero. intros jk _. apply dpart_zero; [lia|exact NC]. }
    destruct (msg_spec net T st v OK ltac:(lia) ltac:(now exists i, Fi)) as (_ & _ & _ & _ & _ & G). unfold delta. rewrite !G, lsum_sub. reflexivity. }
  set (stoch := fun j => match dt_kind net j with KStoch _ => true | KDet _ => false end).
  assert (Split : forall f : nat -> R, lsum (map f (seq 0 (dt_size net))) =
     (lsum (map (fun j => if stoch j then f j else 0) (seq 0 (dt_size net))) +
      lsum (map (fun j => if stoch j then 0 else f j) (seq 0 (dt_size net))))%R).
  { intros f. rewrite <- lsum_map_add. f_equal. apply map_ext. intros j. destruct (stoch j); ring. }
  rewrite (Split delta), (Split dparts) in A.
  assert (B : map (fun j => if stoch j then 0%R else delta j) (seq 0 (dt_size net)) =
              map (fun j => if stoch j then 0%R else dparts j) (seq 0 (dt_size net))).
  { apply map_ext_in. intros j Hj. apply in_seq in Hj. unfold stoch. destruct (dt_kind net j) as [F|D] eqn:EK; [reflexivity|].
    apply (det_delta j D); [lia|exact EK]. }
  rewrite B in A.
  rewrite (lsum_single _ (fun j => if stoch j then delta j else 0%R) i Hi) in A.
  2:{ intros v Hv N. unfold stoch. destruct (dt_kind net v) as [F|D] eqn:EK; [|reflexivity]. unfold delta.
      rewrite !(mom_stoch net _ v F Hv EK), (Same v N). ring. }
  unfold stoch in A at 1. rewrite Ki in A.
  unfold whole_bound. rewrite lsum_sub.
  assert (C : lsum (map (fun a => contribution_at st' a - contribution_at st a) (seq 0 (dt_size net)))%R =
     ((contrib st' Fi i - contrib st Fi i) + lsum (map (fun j => if stoch j then dparts j else 0) (seq 0 (dt_size net))))%R).
  { pose proof (lsum_single (dt_size net) (fun j => if j =? i then (contrib st' Fi i - contrib st Fi i)%R else 0%R) i Hi) as LS.
    cbv beta in LS. rewrite Nat.eqb_refl in LS. rewrite <- LS.
    - rewrite <- lsum_map_add. f_equal. apply map_ext_in. intros j Hj. apply in_seq in Hj.
      unfold contribution_at, stoch. destruct (Nat.eqb_spec j i) as [->|N].
      + rewrite Ki. destruct (one_parent i Hi) as [(Z & _)|(k & v & Hk & _ & Z & _)].
        * rewrite Z. ring.
        * rewrite Z, dpart_zero; [ring|pose proof (parent_lt i k v Hi Hk); lia|].
          intros CF. assert (G : forall w, computed_from net i w -> w < dt_size net -> i <= w).
          { clear - OK. intros w C. induction C as [|v D w E1 E2 E3 IH]; [lia|]. intros Hv.
            pose proof (do_order _ _ _ OK v w Hv E2). specialize (IH ltac:(lia)). lia. }
          pose proof (parent_lt i k v Hi Hk). specialize (G v CF ltac:(lia)). lia.
      + destruct (dt_kind net j) as [F|D] eqn:EK; [|ring]. rewrite (stoch_delta j F) by (try assumption; lia). ring.
    - intros k _ N. now rewrite (proj2 (Nat.eqb_neq _ _) N). }
  rewrite C. lra.
Qed.
End Change.

Lemma set_places : forall st i n', place_of n' = place_of (st i) -> forall j, place_of (set_node st i n' j) = place_of (st j).
Proof. intros st i n' E j. unfold set_node. now destruct (Nat.eqb_spec j i) as [->|]. Qed.

Lemma dnet_ok_set : forall st i n' F, dnet_ok net T st -> dt_kind net i = KStoch F -> place_of n' = place_of (st i) -> n_ann n' = n_ann (st i) ->
  node_ok F (t_par T i) n' -> moments_in (place_of n') (t_mom T i) (n_u n') -> dnet_ok net T (set_node st i n').
Proof.
  intros st i n' F OK EK EP EA N' M'. pose proof (set_places st i n' EP) as P.
  assert (P1 : forall j, n_plates (set_node st i n' j) = n_plates (st j)) by (intros j; exact (f_equal pl_plates (P j))).
  assert (P2 : forall j, n_dims (set_node st i n' j) = n_dims (st j)) by (intros j; exact (f_equal pl_dims (P j))).
  assert (P3 : forall j, n_mask (set_node st i n' j) = n_mask (st j)) by (intros j; exact (f_equal pl_mask (P j))).
  assert (P4 : forall j, n_mult (set_node st i n' j) = n_mult (st j)) by (intros j; exact (f_equal pl_mult (P j))).
  destruct OK as [O1 O2 O3 O4 O5 O6 O7 O8 O9 O10 O11]. constructor; try assumption.
  - intros j Hj. rewrite P1, P3. now apply O3.
  - intros j Hj. rewrite P2. now apply O4.
  - intros j Hj. rewrite P2. now apply O5.
  - intros j Fj Hj E. destruct (Nat.eq_dec j i) as [->|D]; [|rewrite set_node_other by exact D; now apply O6].
    rewrite set_node_same. replace Fj with F by congruence. exact N'.
  - intros j Fj Hj E. destruct (Nat.eq_dec j i) as [->|D]; [|rewrite set_node_other by exact D; now apply (O7 j Fj)].
    rewrite set_node_same. exact M'.
  - intros j Fj Hj E. replace (n_ann (set_node st i n' j)) with (n_ann (st j)); [now apply O8|].
    destruct (Nat.eq_dec j i) as [->|D]; [now rewrite set_node_same|now rewrite set_node_other].
  - intros j Fj k x Hj E Hk. destruct (O10 j Fj k x Hj E Hk) as [L1 L2 L3 L4]. constructor; rewrite ?P1, ?P2, ?P3, ?P4; assumption.
  - intros j D Hj E. replace (fun x => place_of (set_node st i n' x)) with (fun x => place_of (st x)); [now apply O11|].
    apply functional_extensionality. intros x. now rewrite P.
Qed.

Lemma node_step : forall st i F, dnet_ok net T st -> i < dt_size net -> dt_kind net i = KStoch F ->
  exists st', dn_update1 net st i = Ok st' /\ dnet_ok net T st' /\ (whole_bound st <= whole_bound st')%R.
Proof.
  intros st i F OK Hi EK. pose proof (do_node _ _ _ OK i F Hi EK) as N. pose proof (do_stoch _ _ _ OK i F Hi EK) as S.
  destruct (msg_spec net T st i OK Hi ltac:(exists i, F; split; [exact EK|apply cf_self])) as (Em & [Fm Mm] & _ & _ & _ & _). set (m := msg net st i) in *. cbn [place_of pl_plates pl_dims] in Fm, Mm.
  unfold dn_update1. rewrite EK, Em. cbn [bind]. rewrite (from_parents_ok net T st i OK Hi). cbn [bind].
  set (D := net_dist F (n_plates (st i))). set (ups := moms net st i).
  destruct (np_all (n_obs (st i))) eqn:Hobs.
  { unfold update. rewrite Hobs. exists (set_node st i (st i)). split; [reflexivity|].
    replace (set_node st i (st i)) with st; [split; [exact OK|lra]|]. apply functional_extensionality. intros j.
    unfold set_node. now destruct (Nat.eqb_spec j i) as [->|]. }
  set (prior := lift_arrays (n_plates (st i)) (fam_dims (e_fam F)) (fun p => e_phi F (at_plates (e_pdims F) ups p))).
  set (cgf := Arr (n_plates (st i)) (fun p => e_cgf F (at_plates (e_pdims F) ups p))).
  pose proof (node_shaped F (t_par T i) (st i) ups N) as B. fold prior cgf in B.
  assert (SSn : step_shaped D (st i) m ups prior).
  { constructor; [reflexivity|apply (bs_prior _ _ _ B)| |exact Fm|apply (nk_phi _ _ _ N)].
    pose proof (nk_bias _ _ _ N) as NB. unfold no_bias in NB. revert NB. generalize (n_dims (st i)) (n_bias (st i)). clear.
    intros l b H. induction H as [|d x l b [E _] H IH]; constructor; [rewrite E; apply broadcasts_to_nil|exact IH]. }
  assert (RV : forall V, fits (n_plates (st i)) (n_dims (st i)) V ->
     all6 (fun d a b m q w => forall e, bget w e = (n_ann (st i) * (bget a e + bget b e + bget m e))%R)
      (n_dims (st i)) prior (n_bias (st i)) (map (np_scaleR 1) m) (n_phi (st i)) V ->
     forall p, valid (n_plates (st i)) p ->
     t_par T i (at_plate (fam_dims (e_fam F)) V p) /\
     exists u g, fam_moments (e_fam F) (at_plate (fam_dims (e_fam F)) V p) = Ok (u, g) /\
       length u = length (fam_dims (e_fam F)) /\ t_mom T i u).
  { intros V FV A6 p Hp.
    assert (LV : length (at_plate (fam_dims (e_fam F)) V p) = length (fam_dims (e_fam F))).
    { apply at_plate_length. rewrite <- (nk_dims _ _ _ N). symmetry. apply (Forall2_len _ _ _ _ _ FV). }
    assert (TP : t_par T i (at_plate (fam_dims (e_fam F)) V p)).
    { apply (sy_post _ _ _ _ _ S (e_phi F (at_plates (e_pdims F) ups p)) (at_plate (fam_dims (e_fam F)) m p)).
      - apply (sy_prior _ _ _ _ _ S). now apply (parents_at net T st i F p).
      - rewrite <- (nk_dims _ _ _ N). now apply Mm.
      - exact LV.
      - intros c d v Hd Hv. rewrite <- (nk_dims _ _ _ N) in *.
        destruct (nth_total _ _ _ prior c d (Forall2_len _ _ _ _ _ (bs_prior _ _ _ B)) Hd) as [a Ha].
        destruct (nth_total _ _ _ (n_bias (st i)) c d (Forall2_len _ _ _ _ _ (nk_bias _ _ _ N)) Hd) as [b Hb].
        destruct (nth_total _ _ _ m c d (Forall2_len _ _ _ _ _ Fm) Hd) as [y Hy].
        destruct (nth_total _ _ _ (n_phi (st i)) c d (Forall2_len _ _ _ _ _ (nk_phi _ _ _ N)) Hd) as [q Hq].
        destruct (nth_total _ _ _ V c d (Forall2_len _ _ _ _ _ FV) Hd) as [w Hw].
        rewrite (coef_at _ _ _ _ _ _ _ Hd Hw), (coef_at _ _ _ _ _ _ _ Hd Hy).
        rewrite (all6_nth _ _ _ _ _ _ _ A6 c d a b (np_scaleR 1 y) q w Hd Ha Hb (map_nth_error _ _ _ Hy) Hq Hw).
        destruct (Forall2_to_nth _ _ _ _ _ (nk_bias _ _ _ N) c d b Hd Hb) as [_ Zb]. rewrite Zb, Rplus_0_r, bget_scaleR, Rmult_1_l.
        unfold prior in Ha. rewrite <- (nk_dims _ _ _ N) in Ha. destruct (lift_arrays_nth _ _ _ _ _ _ Hd Ha) as [_ G].
        rewrite (G p v Hp Hv). reflexivity. }
    split; [exact TP|]. now apply (sy_mom _ _ _ _ _ S). }
  destruct (update_total D (st i) m ups prior 1 (nk_shaped _ _ _ N) SSn Hobs (nk_g _ _ _ N)) as [n' EU].
  { intros V FV A6. rewrite (nk_dims _ _ _ N). apply (lift_total (e_fam F)). intros p Hp.
    destruct (RV V FV A6 p Hp) as (_ & u & g & E & _). exists (u, g). exact E. }
  rewrite EU. exists (set_node st i n'). split; [reflexivity|].
  destruct (update_shape D (st i) m ups prior 1 n' (nk_shaped _ _ _ N) SSn Hobs EU)
    as (V & u & g & ys & gg & En & FV & LIN & EM & MX & EG & W').
  pose proof (C24_update_consistent _ _ D (st i) m ups prior 1 n' (nk_shaped _ _ _ N) SSn Hobs EU) as CO'.
  assert (PR : proper_at (e_fam F) (t_par T i) (n_plates (st i)) (n_phi n')).
  { rewrite En. cbn [n_phi with_g with_u with_phi]. intros p Hp. apply (RV V FV LIN p Hp). }
  assert (Q : n_plates n' = n_plates (st i) /\ n_dims n' = n_dims (st i) /\ n_mult n' = n_mult (st i) /\
    n_mask n' = n_mask (st i) /\ n_u n' = ys) by (rewrite En; now repeat split).
  destruct Q as (Q1 & Q2 & Q3 & Q4 & Q5).
  assert (EP : place_of n' = place_of (st i)) by (unfold place_of; now rewrite Q1, Q2, Q3, Q4).
  assert (N' : node_ok F (t_par T i) n').
  { rewrite En in *. constructor; cbn [n_dims n_plates n_phi n_g n_f n_mask n_ann n_obs with_g with_u with_phi].
    - apply (nk_dims _ _ _ N).
    - exact W'.
    - exact FV.
    - apply (where_broadcasts _ _ _ _ _ EG); [apply (ws_obs _ (nk_shaped _ _ _ N))| |apply (nk_g _ _ _ N)].
      destruct (lift_ok _ _ _ _ _ _ EM) as [-> _]. apply broadcasts_to_refl.
    - apply (nk_f _ _ _ N).
    - apply (nk_mask _ _ _ N).
    - apply (nk_bias _ _ _ N).
    - apply (nk_ann _ _ _ N).
    - right. split; [exact CO'|exact PR]. }
  assert (M' : moments_in (place_of n') (t_mom T i) (n_u n')).
  { split; [apply moments_variable, (ws_u _ W')|]. rewrite EP. cbn [place_of pl_plates pl_dims]. intros p Hp. rewrite Q5.
    destruct (mixed_nth _ _ _ _ _ _ MX) as [(L1 & L2 & L3) NT].
    assert (LY : length (at_plate (n_dims (st i)) ys p) = length (n_dims (st i))) by now apply at_plate_length.
    destruct (bget (np_not (n_obs (st i))) p) eqn:Eo.
    - destruct (RV V FV LIN p Hp) as (_ & u2 & g2 & E2 & Lu2 & R2).
      apply (do_values _ _ _ OK i Hi u2 _ R2 LY). intros c d v Hd Hv.
      destruct (nth_total _ _ _ ys c d (eq_sym L3) Hd) as [y Hy]. rewrite (coef_at _ _ _ _ _ _ _ Hd Hy).
      destruct (nth_total _ _ _ u c d (eq_sym L1) Hd) as [w Hw].
      destruct (nth_total _ _ _ (n_u (st i)) c d (eq_sym L2) Hd) as [b Hb].
      rewrite (NT c d w b y Hd Hw Hb Hy _ (join_valid _ _ _ _ Hp Hv)).
      rewrite join_plate, Eo.
      destruct (lift_ok _ _ _ _ _ _ EM) as [_ LO]. destruct (LO p Hp) as (us & E1 & _ & Gu).
      rewrite E1 in E2. injection E2 as <- <-.
      rewrite (nk_dims _ _ _ N) in Hd. destruct (Gu c d Hd) as (w' & Hw' & Gv). rewrite Hw in Hw'. injection Hw' as <-. now rewrite (Gv v Hv).
    - destruct (do_mom _ _ _ OK i F Hi EK) as [_ MM]. specialize (MM p Hp). cbn [place_of pl_dims] in MM.
      apply (do_values _ _ _ OK i Hi _ _ MM LY). intros c d v Hd Hv.
      destruct (nth_total _ _ _ ys c d (eq_sym L3) Hd) as [y Hy].
      destruct (nth_total _ _ _ u c d (eq_sym L1) Hd) as [w Hw].
      destruct (nth_total _ _ _ (n_u (st i)) c d (eq_sym L2) Hd) as [b Hb].
      rewrite (coef_at _ _ _ _ _ _ _ Hd Hy), (coef_at _ _ _ _ _ _ _ Hd Hb).
      rewrite (NT c d w b y Hd Hw Hb Hy _ (join_valid _ _ _ _ Hp Hv)). now rewrite join_plate, Eo. }
  assert (OK' : dnet_ok net T (set_node st i n')) by (apply (dnet_ok_set st i n' F); try assumption; now rewrite En).
  split; [exact OK'|].
  destruct (nk_state _ _ _ N) as [X|[CO PP]]; [congruence|].
  assert (GI : gibbs D (n_plates (st i)) (n_dims (st i)) (proper_at (e_fam F) (t_par T i) (n_plates (st i)))).
  { rewrite (nk_dims _ _ _ N). apply lift_gibbs; [reflexivity|]. apply (sy_gibbs _ _ _ _ _ S). }
  assert (CA : candidate D (proper_at (e_fam F) (t_par T i) (n_plates (st i))) (st i) (st i)).
  { constructor; try reflexivity; try assumption; [|apply (nk_phi _ _ _ N)].
    pose proof (moments_fit _ (nk_shaped _ _ _ N)) as MF. pose proof (Forall2_len _ _ _ _ _ MF) as ML.
    split; [now symmetry|]. split; [now symmetry|]. intros x d a b Hd Ha Hb e _ _. congruence. }
  destruct (C24_update _ _ D (st i) m ups prior cgf 0 1 n' (st i) _ SSn eq_refl B (nk_bias _ _ _ N) (nk_ann _ _ _ N) GI EU PR CA B)
    as (L & L' & (l & E1 & ->) & (l' & E2 & ->) & GE).
  unfold D, ups in E1. rewrite (contrib_ok 0 st i F OK Hi EK) in E1. injection E1 as <-.
  assert (PM : moms net (set_node st i n') i = ups).
  { unfold ups, moms. apply map_ext_in. intros x Hx. pose proof (do_order _ _ _ OK i x Hi Hx) as Hxi.
    apply (mom_same st (set_node st i n') i OK OK' Hi (fun j N => set_node_other st i n' j N)); [lia|].
    intros CF. assert (G : forall w, computed_from net i w -> w < dt_size net -> i <= w).
    { clear - OK. intros w C. induction C as [|v D w E1 E2 E3 IH]; [lia|]. intros Hv.
      pose proof (do_order _ _ _ OK v w Hv E2). specialize (IH ltac:(lia)). lia. }
    specialize (G x CF ltac:(lia)). lia. }
  assert (E2' : Ok l' = Ok (contrib (set_node st i n') F i)).
  { rewrite <- E2, <- (contrib_ok 0 (set_node st i n') i F OK' Hi EK), PM, set_node_same. unfold D.
    now rewrite Q1. }
  injection E2' as ->.
  pose proof (bound_change st (set_node st i n') i OK OK' Hi F EK (fun j N => set_node_other st i n' j N) (set_places st i n' EP)) as BC.
  unfold delta in BC. rewrite !(mom_stoch net _ i F Hi EK), set_node_same in BC. fold m in BC.
  assert (M1 : message_dot (st i) m = pairing (place_of (st i)) m (n_u (st i))) by reflexivity.
  assert (M2 : message_dot n' m = pairing (place_of (st i)) m (n_u n')).
  { unfold message_dot, pairing. cbn [place_of pl_plates pl_dims pl_mask pl_mult]. now rewrite Q1, Q2, Q3, Q4. }
  rewrite M1, M2 in GE. lra.
Qed.

Lemma run : forall l st, dnet_ok net T st -> (forall i, In i l -> i < dt_size net /\ exists F, dt_kind net i = KStoch F) ->
  exists st', dn_updates net st l = Ok st' /\ dnet_ok net T st' /\ (whole_bound st <= whole_bound st')%R.
Proof.
  induction l as [|i l IH]; intros st OK Hl.
  - exists st. split; [reflexivity|]. split; [exact OK|lra].
  - destruct (Hl i (or_introl eq_refl)) as (Hi & F & EK). destruct (node_step st i F OK Hi EK) as (st1 & E1 & OK1 & L1).
    destruct (IH st1 OK1 (fun j J => Hl j (or_intror J))) as (st' & E2 & OK2 & L2).
    exists st'. cbn [dn_updates]. rewrite E1. cbn [bind]. split; [exact E2|]. split; [exact OK2|lra].
Qed.
End Net.

(** In a network of conjugate stochastic nodes, constants and deterministic nodes whose
    messages are the derivatives of their moments, VB.update never raises, keeps the
    network well-formed and never decreases the lower bound, for every schedule. *)
Theorem C25_deterministic : forall net T st schedule nan, dnet_ok net T st ->
  (forall i, In i schedule -> i < dt_size net /\ exists F, dt_kind net i = KStoch F) ->
  exists st' L L',
    dn_updates net st schedule = Ok st' /\ dnet_ok net T st' /\
    dn_lowerbound net nan st = Ok L /\ dn_lowerbound net nan st' = Ok L' /\ (L <= L')%R.
Proof.
  intros net T st l nan OK Hl. destruct (run net T l st OK Hl) as (st' & E & OK' & LE).
  exists st', (whole_bound net st), (whole_bound net st'). split; [exact E|]. split; [exact OK'|].
  split; [apply (bound_ok net T nan st _ OK)|split; [apply (bound_ok net T nan st' _ OK')|exact LE]];
    intros j Hj; apply in_seq in Hj; lia.
Qed.
Print Assumptions C25_deterministic.
