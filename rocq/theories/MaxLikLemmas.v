From Coq Require Import List Arith Bool Reals Lra Lia.
From Verif Require Import Base NumPy TensorLemmas Families Linalg MatBridge SpecLinalg LinalgLemmas GaussAlg Gaussian
  FamiliesLemmas FamiliesLemmas2 DetCurve MaxLik SpecMaxLik.
Import ListNotations.
Open Scope R_scope.

(** ** Running comprehensions that do not raise *)
Definition unwrap {A} (d : A) (r : res A) : A := match r with Ok v => v | Err _ => d end.
Lemma mapM_unwrap : forall A B (d : B) (g : A -> res B) l,
  (forall x, In x l -> exists v, g x = Ok v) -> mapM g l = Ok (map (fun x => unwrap d (g x)) l).
Proof.
  induction l as [|a l IH]; intros H; [reflexivity|]. cbn [mapM map].
  destruct (H a (or_introl eq_refl)) as [v E]. rewrite E. cbn [bind unwrap].
  rewrite IH by (intros x Hx; apply H; now right). reflexivity.
Qed.

(** ** Sums *)
Lemma rsum_lsum : forall A (l : list A) n (f : A -> nat -> R),
  rsum n (fun i => lsum (map (fun a => f a i) l)) = lsum (map (fun a => rsum n (f a)) l).
Proof.
  induction l as [|a l IH]; intros n f; [apply rsum_0|]. cbn [map]. unfold lsum in *. cbn [fold_right].
  rewrite <- IH, <- rsum_plus. reflexivity.
Qed.
Lemma lsum_map_ext : forall A (l : list A) (f g : A -> R), (forall a, In a l -> f a = g a) -> lsum (map f l) = lsum (map g l).
Proof. intros A l f g H. f_equal. now apply map_ext_in. Qed.
Lemma lsum_map_plus : forall A (l : list A) (f g : A -> R), lsum (map (fun a => f a + g a) l) = lsum (map f l) + lsum (map g l).
Proof. induction l as [|a l IH]; intros f g; cbn [map]; unfold lsum in *; cbn [fold_right]; [ring|]. rewrite IH. ring. Qed.
Lemma lsum_map_scal_r : forall A (l : list A) (f : A -> R) c, lsum (map f l) * c = lsum (map (fun a => f a * c) l).
Proof. induction l as [|a l IH]; intros f c; cbn [map]; unfold lsum in *; cbn [fold_right]; [ring|]. rewrite <- IH. ring. Qed.
Lemma lsum_combine_seq : forall A (l : list A) d (F : nat -> A -> R) s,
  lsum (map (fun p : nat * A => let (j, a) := p in F j a) (combine (seq s (length l)) l)) =
  rsum (length l) (fun j => F (s + j)%nat (nth j l d)).
Proof.
  induction l as [|a l IH]; intros d F s; [reflexivity|]. cbn [length seq combine map]. rewrite rsum_S_l. unfold lsum in *. cbn [fold_right].
  rewrite (IH d). rewrite Nat.add_0_r. f_equal. apply rsum_ext. intros j _. now rewrite Nat.add_succ_comm.
Qed.
Lemma rsum_app_nat : forall a b f, rsum (a + b) f = rsum a f + rsum b (fun i => f (a + i)%nat).
Proof.
  intros a b f. induction b as [|b IH]; [rewrite Nat.add_0_r; cbn; ring|]. rewrite Nat.add_succ_r. cbn. rewrite IH. ring.
Qed.
Lemma rsum_grid : forall a b f, rsum (a * b) f = rsum a (fun i => rsum b (fun j => f (i * b + j)%nat)).
Proof.
  induction a as [|a IH]; intros b f; [reflexivity|]. replace (S a * b)%nat with (a * b + b)%nat by lia. rewrite rsum_app_nat, IH. reflexivity.
Qed.

(** ** The converter to Wishart moments *)
Lemma delta_message_ok : forall c v, (forall q, (q < c_plates c)%nat -> posdef (c_dim c) (plate_matrix (c_dim c) v q)) ->
  exists du, delta_message c v = Ok du /\
    forall H x t0, x t0 = v -> moves (c_plates c * (c_dim c * c_dim c)) x t0 H ->
      derivable_pt_lim (fun t => rsum (c_plates c) (fun q =>
        innerm (c_dim c) (c_m0 c q) (plate_matrix (c_dim c) (x t) q) + c_m1 c q * ln (mdet (c_dim c) (plate_matrix (c_dim c) (x t) q)))) t0
        (inner (c_plates c * (c_dim c * c_dim c)) du H).
Proof.
  intros c v P. set (D := c_dim c) in *. unfold delta_message. fold D.
  set (g := fun q => '(_, du) <- wishart_fixed_gradient D (plate_matrix D v q) (c_m0 c q, c_m1 c q) ;; Ok du).
  assert (G : forall q, (q < c_plates c)%nat -> exists U, cho_factor D (plate_matrix D v q) = Ok U /\
    g q = Ok (add_m (c_m0 c q) (scal_m (c_m1 c q) (chol_inv D U)))).
  { intros q Hq. destruct (posdef_chol D _ (P q Hq)) as [U EU]. exists U. split; [exact EU|].
    unfold g, wishart_fixed_gradient, chol. rewrite EU. reflexivity. }
  rewrite (mapM_unwrap _ _ (fun _ _ => 0) g).
  2:{ intros q Hq. apply in_seq in Hq. destruct (G q) as (U & _ & E); [lia|]. eauto. }
  cbn [bind]. eexists. split; [reflexivity|]. intros H x t0 E0 M.
  set (du := fun q => unwrap (fun _ _ : nat => 0) (g q)).
  replace (inner _ _ H) with (rsum (c_plates c) (fun q => pair_sum D (du q) (fun i j => H ((q * D + i) * D + j)%nat))).
  - apply (d_rsum (c_plates c) (fun q t => innerm D (c_m0 c q) (plate_matrix D (x t) q) + c_m1 c q * ln (mdet D (plate_matrix D (x t) q)))).
    intros q Hq. destruct (G q Hq) as (U & EU & EG). unfold du. rewrite EG. cbn [unwrap].
    assert (T : tangent D (fun t => plate_matrix D (x t) q) t0 (fun i j => H ((q * D + i) * D + j)%nat)).
    { intros i j Hi Hj. unfold plate_matrix. apply M. nia. }
    assert (IV := chol_inv_ok D _ U (proj1 (P q Hq)) EU).
    assert (SV := inverse_symmetric (proj1 (P q Hq)) IV).
    destruct (chol_logdet_ok D _ U (proj1 (P q Hq)) EU) as [DP _].
    eapply dlim_eq.
    + apply d_plus.
      * unfold innerm. apply (d_rsum D (fun i t => rsum D (fun j => c_m0 c q i j * plate_matrix D (x t) q i j))). intros i Hi.
        apply (d_rsum D (fun j t => c_m0 c q i j * plate_matrix D (x t) q i j)). intros j Hj. apply d_scal. now apply T.
      * apply d_scal. apply (@logdet_curve D (plate_matrix D v q) (chol_inv D U)); [exact IV|exact DP| |exact T].
        cbv beta. rewrite E0. intros ? ? ? ?; reflexivity.
    + rewrite <- pair_sum_scal. unfold pair_sum. rewrite <- rsum_plus. apply rsum_ext. intros i Hi. rewrite <- rsum_plus. apply rsum_ext. intros j Hj.
      unfold add_m, scal_m. rewrite (SV j i Hj Hi). ring.
  - unfold inner. rewrite rsum_grid. apply rsum_ext. intros q Hq. unfold pair_sum. rewrite rsum_grid. apply rsum_ext. intros i Hi. apply rsum_ext. intros j Hj.
    assert (E1 : ((q * (D * D) + (i * D + j)) / (D * D) = q)%nat).
    { symmetry. apply (Nat.div_unique _ _ _ (i * D + j)); nia. }
    assert (E2 : ((q * (D * D) + (i * D + j)) / D = q * D + i)%nat).
    { symmetry. apply (Nat.div_unique _ _ _ j); nia. }
    assert (E3 : ((q * (D * D) + (i * D + j)) mod D = j)%nat).
    { symmetry. apply (Nat.mod_unique _ _ (q * D + i)); nia. }
    assert (E4 : ((q * D + i) mod D = i)%nat).
    { symmetry. apply (Nat.mod_unique _ _ q); nia. }
    rewrite E1, E2, E3, E4.
    assert (EN : nth q (map du (seq 0 (c_plates c))) (fun _ _ => 0) = du q).
    { rewrite (nth_indep _ _ (du 0%nat)) by (rewrite map_length, seq_length; exact Hq). rewrite (map_nth du). now rewrite seq_nth. }
    replace (q * (D * D) + (i * D + j))%nat with ((q * D + i) * D + j)%nat by ring.
    exact (f_equal (fun M : mat => M i j * H ((q * D + i) * D + j)%nat) (eq_sym EN)).
Qed.

(** ** The values of all nodes *)
Lemma forward_app : forall fs vs k, (k < length vs)%nat ->
  nth k (fold_left (fun vs f => vs ++ [f_fun f (values_at vs (f_parents f))]) fs vs) zero_v = nth k vs zero_v.
Proof.
  induction fs as [|f fs IH]; intros vs k Hk; [reflexivity|]. cbn [fold_left].
  rewrite IH by (rewrite app_length; lia). now apply app_nth1.
Qed.
Lemma forward_length : forall fs vs,
  length (fold_left (fun vs f => vs ++ [f_fun f (values_at vs (f_parents f))]) fs vs) = (length vs + length fs)%nat.
Proof.
  induction fs as [|f fs IH]; intros vs; cbn [fold_left length]; [lia|]. rewrite IH, app_length. cbn. lia.
Qed.
Lemma values_at_ext : forall vs ws ks, (forall k, In k ks -> nth k vs zero_v = nth k ws zero_v) -> values_at vs ks = values_at ws ks.
Proof. intros vs ws ks H. unfold values_at. now apply map_ext_in. Qed.
Lemma forward_func : forall fs vs j f, nth_error fs j = Some f -> Forall (fun k => (k < length vs + j)%nat) (f_parents f) ->
  let out := fold_left (fun vs f => vs ++ [f_fun f (values_at vs (f_parents f))]) fs vs in
  nth (length vs + j) out zero_v = f_fun f (values_at out (f_parents f)).
Proof.
  induction fs as [|f0 fs IH]; intros vs j f E W out; [destruct j; discriminate|]. unfold out. cbn [fold_left].
  set (vs1 := vs ++ [f_fun f0 (values_at vs (f_parents f0))]).
  assert (L1 : length vs1 = S (length vs)) by (unfold vs1; rewrite app_length; cbn; lia).
  destruct j as [|j].
  - injection E as ->. rewrite Nat.add_0_r in *. rewrite forward_app by lia. unfold vs1 at 1.
    rewrite app_nth2 by lia. rewrite Nat.sub_diag. cbn [nth]. f_equal. apply values_at_ext. intros k Hk.
    rewrite Forall_forall in W. specialize (W k Hk). rewrite forward_app by lia. unfold vs1. now rewrite app_nth1.
  - cbn [nth_error] in E. specialize (IH vs1 j f E). rewrite L1 in IH. replace (S (length vs) + j)%nat with (length vs + S j)%nat in IH by lia. now apply IH.
Qed.

Section Net.
Variables (net : mlnet) (theta : list vec).
Let p := length (n_params net).
Let N := (p + length (n_funcs net))%nat.
Hypothesis WF : well_formed net.
Hypothesis LT : length theta = p.
Hypothesis GF : good_functions net theta.
Hypothesis PR : proper net theta.
Let vs := forward net theta.

Definition dus (c : consumer) : vec := unwrap zero_v (delta_message c (nth (c_node c) vs zero_v)).
Lemma consumer_ok : forall c, In c (n_consumers net) -> delta_message c (nth (c_node c) vs zero_v) = Ok (dus c).
Proof.
  intros c Hc. unfold proper in PR. rewrite Forall_forall in PR.
  destruct (delta_message_ok c _ (PR c Hc)) as (du & E & _). unfold dus, vs. now rewrite E.
Qed.
Definition from_consumers (k : nat) : vec := fun e => lsum (map (fun c => if (c_node c =? k)%nat then dus c e else 0) (n_consumers net)).
Definition from_function (f : fnode) (m : vec) (k : nat) : vec := fun e =>
  lsum (map (fun ig : nat * (vec -> list vec -> vec) => let (p, g) := ig in if (p =? k)%nat then g m (values_at vs (f_parents f)) e else 0)
            (combine (f_parents f) (f_grads f))).

Definition msg (k : nat) : vec := unwrap zero_v (messages_from_children (S N) net vs k).
Lemma mapM_ext : forall A B (f g : A -> res B) l, (forall x, In x l -> f x = g x) -> mapM f l = mapM g l.
Proof. induction l as [|a l IH]; intros H; [reflexivity|]. cbn. rewrite (H a (or_introl eq_refl)), IH; [reflexivity|intros; apply H; now right]. Qed.
Lemma in_combine_seq : forall A (l : list A) j f s, In (j, f) (combine (seq s (length l)) l) -> (s <= j)%nat /\ nth_error l (j - s) = Some f.
Proof.
  induction l as [|a l IH]; intros j f s H; [destruct H|]. cbn [length seq combine] in H. destruct H as [H|H].
  - injection H as -> ->. split; [lia|]. now rewrite Nat.sub_diag.
  - apply IH in H as [L H]. split; [lia|]. replace (j - s)%nat with (S (j - S s)) by lia. exact H.
Qed.
Lemma from_function_none : forall f m k e, existsb (Nat.eqb k) (f_parents f) = false -> from_function f m k e = 0.
Proof.
  intros f m k e H. unfold from_function. generalize (f_grads f) as gs. generalize (values_at vs (f_parents f)) as xs. intros xs.
  induction (f_parents f) as [|a l IH]; intros gs; [reflexivity|]. destruct gs as [|g gs]; [reflexivity|]. cbn [combine map]. cbn [existsb] in H.
  apply orb_false_iff in H as [H1 H2]. unfold lsum in *. cbn [fold_right]. rewrite (IH H2). rewrite Nat.eqb_sym, H1. ring.
Qed.

(** The recursion ends: the message to a node does not depend on the depth allowed. *)
Definition explicit (k : nat) : vec := fun e => lsum (map (fun v : vec => v e) (map (fun c => if (c_node c =? k)%nat then dus c else zero_v) (n_consumers net))) +
     lsum (map (fun v : vec => v e) (map (fun jf : nat * fnode => let (j, f) := jf in
       if existsb (Nat.eqb k) (f_parents f) then from_function f (msg (p + j)%nat) k else zero_v) (combine (seq 0 (length (n_funcs net))) (n_funcs net)))).
Lemma messages_stable : forall d k, (N - k <= d)%nat -> (k < N)%nat ->
  forall fuel, (N - k < fuel)%nat -> messages_from_children fuel net vs k = Ok (explicit k).
Proof.
  induction d as [|d IH]; intros k Hd Hk; [lia|].
  intros fuel Hf. destruct fuel as [|fuel]; [lia|]. cbn [messages_from_children].
  assert (E1 : mapM (fun c => if (c_node c =? k)%nat then delta_message c (nth k vs zero_v) else Ok zero_v) (n_consumers net) =
    Ok (map (fun c => if (c_node c =? k)%nat then dus c else zero_v) (n_consumers net))).
  { erewrite (mapM_unwrap _ _ zero_v).
    - f_equal. apply map_ext_in. intros c Hc. destruct (Nat.eqb_spec (c_node c) k) as [<-|]; [now rewrite (consumer_ok c Hc)|reflexivity].
    - intros c Hc. destruct (Nat.eqb_spec (c_node c) k) as [<-|]; [rewrite (consumer_ok c Hc)|]; eauto. }
  rewrite E1. cbn [bind].
  match goal with |- bind (mapM ?g0 _) _ = _ => set (g := g0) end.
  assert (E2 : forall j f, In (j, f) (combine (seq 0 (length (n_funcs net))) (n_funcs net)) ->
     g (j, f) = Ok (if existsb (Nat.eqb k) (f_parents f) then from_function f (msg (p + j)%nat) k else zero_v)).
  { intros j f Hj. unfold g. destruct (existsb (Nat.eqb k) (f_parents f)) eqn:EX; [|reflexivity].
    apply in_combine_seq in Hj as [_ Hj]. rewrite Nat.sub_0_r in Hj.
    assert (Lj : (j < length (n_funcs net))%nat) by (apply nth_error_Some; congruence).
    apply existsb_exists in EX as (k' & Hin & Ek). apply Nat.eqb_eq in Ek. subst k'.
    destruct WF as [W _]. specialize (W j f Hj). rewrite Forall_forall in W. specialize (W k Hin). fold p in W.
    assert (Hv : forall fuel, (N - (p + j) < fuel)%nat -> messages_from_children fuel net vs (p + j)%nat = Ok (explicit (p + j)%nat)) by (apply IH; unfold N in *; lia). fold p.
    rewrite Hv by (unfold N in *; lia). cbn [bind]. unfold msg. rewrite Hv by (unfold N; lia). reflexivity. }
  erewrite (mapM_unwrap _ _ zero_v g).
  - cbn [bind]. f_equal. apply FunctionalExtensionality.functional_extensionality. intros e. unfold explicit. f_equal. f_equal. f_equal. apply map_ext_in. intros [j f] Hj. now rewrite (E2 j f Hj).
  - intros [j f] Hj. rewrite (E2 j f Hj). eauto.
Qed.
Lemma msg_ok : forall k, (k < N)%nat -> messages_from_children (S N) net vs k = Ok (msg k).
Proof. intros k Hk. unfold msg. rewrite (messages_stable (N - k) k (le_n _) Hk) by lia. reflexivity. Qed.
Definition fnone : fnode := FNode [] 0 (fun _ => zero_v) [].
Lemma msg_eq : forall k e, (k < N)%nat ->
  msg k e = from_consumers k e + rsum (length (n_funcs net)) (fun j => from_function (nth j (n_funcs net) fnone) (msg (p + j)%nat) k e).
Proof.
  intros k e Hk. unfold msg at 1. rewrite (messages_stable (N - k) k (le_n _) Hk) by lia. cbn [unwrap]. unfold explicit. rewrite !map_map. f_equal.
  - unfold from_consumers. apply lsum_map_ext. intros c _. destruct (c_node c =? k)%nat; reflexivity.
  - etransitivity; [|apply (lsum_combine_seq _ (n_funcs net) fnone (fun j f => from_function f (msg (p + j)%nat) k e) 0)]. apply lsum_map_ext.
    intros [j f] _. destruct (existsb (Nat.eqb k) (f_parents f)) eqn:EX; [reflexivity|]. now rewrite from_function_none.
Qed.

(** ** Along a curve of parameters *)
Section Curve.
Variables (th : R -> list vec) (t0 : R) (Hs : list vec).
Hypothesis T0 : th t0 = theta.
Hypothesis MV : all_move (n_params net) th t0 Hs.

Lemma size_param : forall k, (k < p)%nat -> size_of net k = nth k (n_params net) 0%nat.
Proof. intros k Hk. unfold size_of, sizes. now apply app_nth1. Qed.
Lemma size_func : forall j f, nth_error (n_funcs net) j = Some f -> size_of net (p + j) = f_size f.
Proof.
  intros j f E. unfold size_of, sizes. fold p. rewrite app_nth2 by (fold p; lia). fold p. replace (p + j - p)%nat with j by lia.
  assert (L : (j < length (n_funcs net))%nat) by (apply nth_error_Some; congruence).
  rewrite (nth_indep _ _ (f_size fnone)) by (rewrite map_length; exact L). rewrite map_nth. f_equal. now apply nth_error_nth.
Qed.
Lemma tangents : forall J, (J <= length (n_funcs net))%nat -> exists Hl : list vec,
  length Hl = (p + J)%nat /\ (forall k, (k < p)%nat -> nth k Hl zero_v = nth k Hs zero_v) /\
  (forall k, (k < p + J)%nat -> moves (size_of net k) (fun t => nth k (forward net (th t)) zero_v) t0 (nth k Hl zero_v)) /\
  (forall j f, (j < J)%nat -> nth_error (n_funcs net) j = Some f -> forall m,
     inner (f_size f) m (nth (p + j) Hl zero_v) =
     inner_all (map (size_of net) (f_parents f)) (fun i => nth i (f_grads f) (fun _ _ => zero_v) m (values_at vs (f_parents f)))
       (fun i => nth (nth i (f_parents f) 0%nat) Hl zero_v)).
Proof.
  destruct MV as (L1 & L2 & M). fold p in L1, L2, M. induction J as [|J IH]; intros HJ.
  - exists Hs. rewrite !Nat.add_0_r. split; [exact L1|]. split; [reflexivity|]. split; [|intros; lia].
    intros k Hk. rewrite size_param by exact Hk. intros e He.
    apply (dlim_ext (fun t => nth k (th t) zero_v e)); [|now apply M]. intros t. unfold forward. rewrite forward_app; [reflexivity|]. now rewrite L2.
  - destruct IH as (Hl & A1 & A2 & A3 & A4); [lia|].
    destruct (nth_error (n_funcs net) J) as [f|] eqn:EF; [|apply nth_error_None in EF; lia].
    destruct WF as [W _]. specialize (W J f EF). fold p in W.
    destruct (GF J f EF) as [LG D]. fold vs in D.
    destruct (D (fun t => values_at (forward net (th t)) (f_parents f)) t0 (map (fun k => nth k Hl zero_v) (f_parents f))) as (K & MK & IK).
    { cbv beta. now rewrite T0. }
    { split; [now rewrite !map_length|]. split; [intros t; unfold values_at; now rewrite !map_length|]. rewrite map_length. intros i Hi.
      assert (Hp : (nth i (f_parents f) 0 < p + J)%nat) by (rewrite Forall_forall in W; apply W; now apply nth_In).
      rewrite (nth_indep (map (size_of net) _) 0%nat (size_of net 0)) by (now rewrite map_length). rewrite map_nth.
      rewrite (nth_indep (map (fun k => nth k Hl zero_v) _) zero_v (nth 0 Hl zero_v)) by (now rewrite map_length). rewrite (map_nth (fun k => nth k Hl zero_v)).
      intros e He. apply (dlim_ext (fun t => nth (nth i (f_parents f) 0%nat) (forward net (th t)) zero_v e)); [|now apply A3].
      intros t. unfold values_at. rewrite (nth_indep (map (fun k => nth k (forward net (th t)) zero_v) _) zero_v (nth 0 (forward net (th t)) zero_v)) by (now rewrite map_length).
      now rewrite (map_nth (fun k => nth k (forward net (th t)) zero_v)). }
    exists (Hl ++ [K]).
    assert (Q : forall k, (k < p + J)%nat -> nth k (Hl ++ [K]) zero_v = nth k Hl zero_v) by (intros k Hk; apply app_nth1; lia).
    assert (QJ : nth (p + J) (Hl ++ [K]) zero_v = K) by (rewrite app_nth2 by lia; now rewrite A1, Nat.sub_diag).
    assert (SP : forall j g, (j <= J)%nat -> nth_error (n_funcs net) j = Some g -> forall a,
      inner_all (map (size_of net) (f_parents g)) a (fun i => nth (nth i (f_parents g) 0%nat) (Hl ++ [K]) zero_v) =
      inner_all (map (size_of net) (f_parents g)) a (fun i => nth (nth i (f_parents g) 0%nat) Hl zero_v)).
    { intros j g Hj Eg a. unfold inner_all. apply rsum_ext. intros i Hi. rewrite map_length in Hi. rewrite Q; [reflexivity|].
      destruct WF as [W' _]. specialize (W' j g Eg). rewrite Forall_forall in W'. specialize (W' _ (nth_In _ 0%nat Hi)). fold p in W'. lia. }
    split; [rewrite app_length; cbn; lia|]. split; [intros k Hk; rewrite Q by lia; now apply A2|]. split.
    + intros k Hk. destruct (Nat.eq_dec k (p + J)) as [->|NE]; [|rewrite Q by lia; apply A3; lia].
      rewrite QJ, (size_func J f EF). intros e He. apply (dlim_ext (fun t => f_fun f (values_at (forward net (th t)) (f_parents f)) e)); [|now apply MK].
      intros t. unfold forward. pose proof (forward_func (n_funcs net) (th t) J f EF) as FF. cbv zeta in FF. rewrite L2 in FF. rewrite FF; [reflexivity|exact W].
    + intros j g Hj Eg m. rewrite (SP j g) by (assumption || lia). destruct (Nat.eq_dec j J) as [->|NE].
      * rewrite QJ. assert (g = f) by congruence. subst g. rewrite IK. unfold inner_all. apply rsum_ext. intros i Hi. rewrite map_length in Hi. f_equal.
        rewrite (nth_indep (map (fun k => nth k Hl zero_v) _) zero_v (nth 0 Hl zero_v)) by (now rewrite map_length). now rewrite (map_nth (fun k => nth k Hl zero_v)).
      * rewrite Q by lia. apply A4; [lia|exact Eg].
Qed.
Lemma inner_lsum : forall A n (l : list A) (F : A -> vec) H, inner n (fun e => lsum (map (fun a => F a e) l)) H = lsum (map (fun a => inner n (F a) H) l).
Proof. intros A n l F H. unfold inner. rewrite <- rsum_lsum. apply rsum_ext. intros e _. now rewrite lsum_map_scal_r. Qed.
Lemma from_function_sum : forall f m (H : nat -> vec), Forall (fun k => (k < N)%nat) (f_parents f) -> length (f_grads f) = length (f_parents f) ->
  rsum N (fun k => inner (size_of net k) (from_function f m k) (H k)) =
  inner_all (map (size_of net) (f_parents f)) (fun i => nth i (f_grads f) (fun _ _ => zero_v) m (values_at vs (f_parents f))) (fun i => H (nth i (f_parents f) 0%nat)).
Proof.
  intros f m H F L. unfold from_function. set (xs := values_at vs (f_parents f)). clearbody xs.
  rewrite (rsum_ext N _ (fun k => lsum (map (fun ig : nat * (vec -> list vec -> vec) => if (fst ig =? k)%nat then inner (size_of net k) (snd ig m xs) (H k) else 0) (combine (f_parents f) (f_grads f))))).
  2:{ intros k _. rewrite (inner_lsum _ _ _ (fun ig : nat * (vec -> list vec -> vec) => fun e => let (p0, g) := ig in if (p0 =? k)%nat then g m xs e else 0)).
      apply lsum_map_ext. intros [a g] _. cbn [fst snd]. destruct (a =? k)%nat; [reflexivity|]. unfold inner. rewrite (rsum_ext _ _ (fun _ => 0)); [apply rsum_0|intros; ring]. }
  rewrite (rsum_lsum _ _ N (fun (ig : nat * (vec -> list vec -> vec)) k => if (fst ig =? k)%nat then inner (size_of net k) (snd ig m xs) (H k) else 0)).
  unfold inner_all. rewrite map_length. revert F L. generalize (f_grads f) as gs. induction (f_parents f) as [|a l IH]; intros gs F L; [reflexivity|].
  destruct gs as [|g gs]; [discriminate|]. cbn [combine map length]. rewrite rsum_S_l. unfold lsum in *. cbn [fold_right nth]. inversion F; subst. rewrite IH; [|assumption|now injection L].
  f_equal. cbn [fst snd]. rewrite (rsum_ext N _ (fun k => if (k =? a)%nat then inner (size_of net k) (g m xs) (H k) else 0)) by (intros; now rewrite Nat.eqb_sym).
  rewrite (rsum_single N a (fun k => inner (size_of net k) (g m xs) (H k))) by assumption. reflexivity.
Qed.
Lemma d_lsum : forall A (l : list A) (F : A -> R -> R) t1 (D : A -> R), (forall a, In a l -> derivable_pt_lim (F a) t1 (D a)) ->
  derivable_pt_lim (fun t => lsum (map (fun a => F a t) l)) t1 (lsum (map D l)).
Proof.
  induction l as [|a l IH]; intros F t1 D H; [exact (d_const 0 t1)|]. cbn [map]. unfold lsum in *. cbn [fold_right].
  apply (d_plus (F a) (fun t => fold_right Rplus 0 (map (fun a => F a t) l))); [apply H; now left|apply IH; intros; apply H; now right].
Qed.
Lemma gradient_curve : derivable_pt_lim (fun t => children_bound net (th t)) t0
  (inner_all (n_params net) msg (fun k => nth k Hs zero_v)).
Proof.
  destruct (tangents (length (n_funcs net)) (le_n _)) as (Hl & A1 & A2 & A3 & A4). fold N in A1, A3.
  set (H := fun k => nth k Hl zero_v).
  eapply dlim_eq.
  { unfold children_bound. apply (d_lsum _ (n_consumers net) (fun c t => rsum (c_plates c) (fun q =>
      let Lambda := plate_matrix (c_dim c) (nth (c_node c) (forward net (th t)) zero_v) q in
      innerm (c_dim c) (c_m0 c q) Lambda + c_m1 c q * ln (mdet (c_dim c) Lambda))) t0 (fun c => inner (size_of net (c_node c)) (dus c) (H (c_node c)))).
    intros c Hc. destruct WF as [_ W]. rewrite Forall_forall in W. destruct (W c Hc) as [W1 W2].
    pose proof PR as PR'. unfold proper in PR'. rewrite Forall_forall in PR'. destruct (delta_message_ok c _ (PR' c Hc)) as (du & E & DD).
    replace (dus c) with du by (unfold dus, vs; now rewrite E). rewrite W2.
    apply (DD (H (c_node c)) (fun t => nth (c_node c) (forward net (th t)) zero_v) t0).
    - now rewrite T0.
    - rewrite <- W2. apply A3. unfold sizes in W1. rewrite app_length, map_length in W1. exact W1. }
  (* the sum over the children equals the sum over the parameters *)
  assert (S1 : lsum (map (fun c => inner (size_of net (c_node c)) (dus c) (H (c_node c))) (n_consumers net)) =
    rsum N (fun k => inner (size_of net k) (from_consumers k) (H k))).
  { unfold from_consumers. rewrite (rsum_ext N _ (fun k => lsum (map (fun c => if (c_node c =? k)%nat then inner (size_of net k) (dus c) (H k) else 0) (n_consumers net)))).
    - rewrite (rsum_lsum _ _ N (fun c k => if (c_node c =? k)%nat then inner (size_of net k) (dus c) (H k) else 0)). apply lsum_map_ext. intros c Hc.
      destruct WF as [_ W]. rewrite Forall_forall in W. destruct (W c Hc) as [W1 _]. unfold sizes in W1. rewrite app_length, map_length in W1. fold p N in W1.
      rewrite (rsum_ext N _ (fun k => if (k =? c_node c)%nat then inner (size_of net k) (dus c) (H k) else 0)) by (intros; now rewrite Nat.eqb_sym).
      now rewrite (rsum_single N (c_node c) (fun k => inner (size_of net k) (dus c) (H k))) by exact W1.
    - intros k _. rewrite (inner_lsum _ _ _ (fun c e => if (c_node c =? k)%nat then dus c e else 0)). apply lsum_map_ext. intros c _.
      destruct (c_node c =? k)%nat; [reflexivity|]. unfold inner. rewrite (rsum_ext _ _ (fun _ => 0)); [apply rsum_0|intros; ring]. }
  rewrite S1.
  assert (S2 : rsum N (fun k => inner (size_of net k) (msg k) (H k)) = rsum N (fun k => inner (size_of net k) (from_consumers k) (H k)) +
    rsum (length (n_funcs net)) (fun j => inner (size_of net (p + j)) (msg (p + j)%nat) (H (p + j)%nat))).
  { rewrite (rsum_ext N _ (fun k => inner (size_of net k) (from_consumers k) (H k) +
      rsum (length (n_funcs net)) (fun j => inner (size_of net k) (from_function (nth j (n_funcs net) fnone) (msg (p + j)%nat) k) (H k)))).
    - rewrite rsum_plus. f_equal. rewrite rsum_swap. apply rsum_ext. intros j Hj. set (f := nth j (n_funcs net) fnone).
      assert (EF : nth_error (n_funcs net) j = Some f) by (now apply nth_error_nth').
      rewrite from_function_sum.
      + rewrite (size_func j f EF). symmetry. now apply A4.
      + destruct WF as [W _]. specialize (W j f EF). fold p in W. eapply Forall_impl; [|exact W]. cbv beta. intros; unfold N; lia.
      + exact (proj1 (GF j f EF)).
    - intros k Hk. unfold inner. rewrite rsum_swap, <- rsum_plus. apply rsum_ext. intros e _. rewrite (msg_eq k e Hk), Rmult_plus_distr_r. f_equal. now rewrite rsum_scal_r. }
  unfold N in S2 at 1. rewrite rsum_app_nat in S2. unfold inner_all. fold p.
  rewrite (rsum_ext p (fun i => inner (nth i (n_params net) 0%nat) (msg i) (nth i Hs zero_v)) (fun k => inner (size_of net k) (msg k) (H k))).
  - lra.
  - intros k Hk. rewrite size_param by exact Hk. unfold H. now rewrite A2.
Qed.
End Curve.
End Net.
