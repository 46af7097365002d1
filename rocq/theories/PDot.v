(** Properties of SumMultiply and Dot (C46) and of Node._compute_message (C08). *)
From Coq Require Import Ascii String List Arith ZArith Lia Bool Reals Lra FunctionalExtensionality.
From Verif Require Import Base Shapes SpecShapes ShapesLemmas NumPy MiscArray SpecArray TensorLemmas
  EinsumLemmas PlateSumLemmas ShapeOpsLemmas MessageLemmas Dot SpecDot DotEinsum DotNode DotPart DotExpect DotInit DotFinal DotMoments ComputeMessage DotScale DotMsg DotParse.
Import ListNotations.
Open Scope nat_scope.

(** ** C08 *)

(** Node._compute_message: for every plate [t] of the parent and every index [v] of the variable
    axes, the sum, over the child plates that map to [t], of the product of the arrays, whether
    or not the arrays are broadcast over these plates.  [S] is the shape of the product. *)
Theorem C08_compute_message : forall arrays plates_from plates_to nd S, arrays <> [] ->
  broadcasts_to plates_to plates_from -> (forall k, ax plates_from k <> 0) ->
  numpy_broadcast (map ash arrays) S -> nd <= length S ->
  broadcasts_to (firstn (length S - nd) S) plates_from ->
  exists y, compute_message arrays plates_from plates_to nd = Ok y /\
    broadcasts_to (ash y) (plates_to ++ skipn (length S - nd) S) /\
    (forall k, k < nd -> ax (ash y) k = ax S k) /\
    forall t v, valid plates_to t -> (forall k, k < nd -> v k < ax S k) ->
      bget y (join nd t v) =
      fibre_sum plates_from plates_to t (fun i => lprod (map (fun a => bget a (join nd i v)) arrays)).
Proof.
  intros arrays from to nd S N H1 H2 H3 H4 [H5 H6].
  destruct (compute_message_ok arrays from to nd S N H1 H2 H3 H4) as (y & E & B & _ & A & V).
  - intros k. specialize (H6 k). rewrite ax_firstn in H6 by lia. replace (length S - (length S - nd) + k) with (k + nd) in H6 by lia. exact H6.
  - rewrite firstn_length in H5. lia.
  - exists y. split; [exact E|]. split; [exact B|]. split; [exact A|]. exact V.
Qed.
Print Assumptions C08_compute_message.

Example C08_compute_message_example :
  let a := Arr [3;1;2] (fun e => INR (e 0 + e 2)) in let b := Arr [4;1] (fun e => INR (e 1)) in
  broadcasts_to [1;4] [5;3;4] /\ numpy_broadcast (map ash [a; b]) [3;4;2] /\
  broadcasts_to (firstn 2 [3;4;2]) [5;3;4] /\ valid [1;4] (fun k => if k =? 0 then 3 else 0).
Proof.
  cbv zeta. split; [|split; [|split]].
  - split; [cbn; lia|]. intros [|[|[|k]]]; cbn; auto.
  - apply broadcasted_shape_ok. reflexivity.
  - split; [cbn; lia|]. intros [|[|[|k]]]; cbn; auto.
  - intros k. destruct k as [|[|[|k]]]; cbn; lia.
Qed.

(** Plates of length zero: the sum over no child plates is zero, but the routine raises when the
    array has the empty plate axis and the parent has a unit axis there. *)
Theorem C08_compute_message_empty_refuted :
  ~ (forall arrays plates_from plates_to nd S, arrays <> [] ->
     broadcasts_to plates_to plates_from -> numpy_broadcast (map ash arrays) S -> nd <= length S ->
     broadcasts_to (firstn (length S - nd) S) plates_from ->
     exists y, compute_message arrays plates_from plates_to nd = Ok y).
Proof.
  intros H. destruct (H [Arr [0] (fun _ => 0%R)] [0] [1] 0 [0]) as [y Hy].
  - discriminate.
  - split; [cbn; lia|]. intros [|k]; cbn; auto.
  - apply broadcasted_shape_ok. reflexivity.
  - cbn; lia.
  - split; [cbn; lia|]. intros k. now right.
  - discriminate Hy.
Qed.
Print Assumptions C08_compute_message_empty_refuted.

(** ** C46: arguments *)

(** The string syntax: SumMultiply('ab,bc->ac', ...) means these keys. *)
Theorem C46_parse : forall ins out, ins <> [] ->
  (forall k, In k ins -> forall c, In c k -> key_char c) -> (forall c, In c out -> key_char c) ->
  sm_parse (einsum_string ins out) (length ins) = Ok (map (map nat_of_ascii) ins, map nat_of_ascii out).
Proof. exact parse_ok. Qed.
Print Assumptions C46_parse.
(** Exactly which strings are accepted, and with which keys; all others raise ValueError. *)
Theorem C46_parse_exact : forall s n,
  (forall ks o, sm_parse s n = Ok (ks, o) <->
     exists ins out, argument_string (list_ascii_of_string s) ins out /\ length ins = n /\
       ks = map (map nat_of_ascii) ins /\ o = map nat_of_ascii out) /\
  (forall e, sm_parse s n = Err e -> e = ValueError).
Proof. intros s n. split; [intros; apply parse_iff|apply parse_raises]. Qed.
Print Assumptions C46_parse_exact.
Example C46_parse_example : sm_parse "ik, k ,kj -> ij" 3 = Ok ([[105;107];[107];[107;106]], [105;106]).
Proof. reflexivity. Qed.

(** Dot(x1, ..., xn) is SumMultiply with the same key for all factors and no output keys. *)
Theorem C46_dot_keys : forall n, 0 < n -> sm_parse (dot_string n) n = Ok (repeat [nat_of_ascii "i"] n, []).
Proof. exact dot_parse. Qed.
Print Assumptions C46_dot_keys.
Example C46_dot_example : sm_parse (dot_string 3) 3 = Ok ([[105];[105];[105]], []).
Proof. reflexivity. Qed.

(** The constructor accepts exactly the valid arguments; otherwise it raises ValueError. *)
Theorem C46_arguments : forall full nodes keysets keys_out, enumerates full keysets ->
  ((exists g, sm_init full nodes keysets keys_out = Ok g) <-> valid_arguments (map fst nodes) keysets keys_out) /\
  forall e, sm_init full nodes keysets keys_out = Err e -> e = ValueError.
Proof.
  intros full nodes keysets keys_out HF. split; [split|].
  - intros [g H]. now apply sm_init_ok in H.
  - intros H. now apply sm_init_total.
  - intros e H. eapply sm_init_err; eassumption.
Qed.
Print Assumptions C46_arguments.

(** ** C46: moments *)

Lemma lprod_pos : forall (os : list outcome), (forall o, In o os -> 0 < o_scale o)%R ->
  (0 < scale_of os)%R /\ ln (scale_of os) = lsum (map (fun o => ln (o_scale o)) os).
Proof.
  unfold scale_of. induction os as [|o os IH]; intros H; [split; [cbn; lra|cbn; apply ln_1]|].
  destruct IH as [I1 I2]; [intros x Hx; apply H; now right|]. assert (Ho : (0 < o_scale o)%R) by (apply H; now left).
  cbn [map]. change (lprod (?a :: ?l)) with (a * lprod l)%R. change (lsum (?a :: ?l)) with (a + lsum l)%R.
  split; [now apply Rmult_lt_0_compat|]. rewrite ln_mult by assumption. now rewrite I2.
Qed.
Lemma drawn_in : forall (os : list outcome) (parents : list (pmom * (env -> list outcome))) p,
  Forall2 (fun o d => In o d) os (map (fun pa => snd pa p) parents) -> forall o, In o os -> exists pa, In pa parents /\ In o (snd pa p).
Proof.
  intros os parents p H. remember (map _ parents) as ds eqn:E. revert parents E.
  induction H as [|o d os ds Ho H IH]; intros parents E x Hx; [destruct Hx|]. destruct parents as [|pa parents]; [discriminate|].
  injection E as -> ->. destruct Hx as [<-|Hx]; [exists pa; split; [now left|assumption]|].
  destruct (IH parents eq_refl x Hx) as (q & Hq & Hq'). exists q. split; [now right|assumption].
Qed.
Lemma F2_in_r : forall A B (Q : A -> B -> Prop) l l', Forall2 Q l l' -> forall b, In b l' -> exists a, In a l /\ Q a b.
Proof. intros A B Q l l' H. induction H; intros b []; subst; [exists x; split; [now left|assumption]|]. destruct (IHForall2 b H1) as (a & Ha & Hb). exists a. split; [now right|assumption]. Qed.
Lemma lprod_combine : forall (f : outcome -> R) n (ds : list (list outcome)), length ds = n ->
  lprod (map (fun q : (outcome -> R) * list outcome => mean_of (snd q) (fst q)) (combine (repeat f n) ds)) = lprod (map (fun d => mean_of d f) ds) .
Proof. intros f n ds. revert n. induction ds as [|d ds IH]; intros [|n] H; try discriminate; [reflexivity|]. cbn [repeat combine map fst snd].
  change (lprod (?a :: ?l)) with (a * lprod l)%R. rewrite IH by (now injection H). reflexivity. Qed.
Lemma lprod_combine' : forall (f : outcome -> R) n (os : list outcome), length os = n ->
  lprod (map (fun q : (outcome -> R) * outcome => (fst q) (snd q)) (combine (repeat f n) os)) = lprod (map f os) .
Proof. intros f n ds. revert n. induction ds as [|d ds IH]; intros [|n] H; try discriminate; [reflexivity|]. cbn [repeat combine map fst snd].
  change (lprod (?a :: ?l)) with (a * lprod l)%R. rewrite IH by (now injection H). reflexivity. Qed.

(** For independent parents whose moments describe their distributions: the moments of the node
    are, in every plate, the expectations of tau Y and tau Y Y', where Y is the sum-product of the
    parents' values and tau the product of their scales; and, with Gaussian-gamma moments, the
    expectations of tau and log tau. *)
Theorem C46_moments : forall full nodes keysets keys_out g P parents,
  enumerates full keysets -> sm_init full nodes keysets keys_out = Ok g ->
  Forall2 (fun (nd : shape * pkind) (pa : pmom * (env -> list outcome)) =>
             describes (existsb (fun p => is_gamma (snd p)) nodes) P (fst nd) (snd nd) (fst pa) (snd pa)) nodes parents ->
  exists size, (forall k, In k (concat keysets) -> key_length (map fst nodes) keysets k (size k)) /\
  let shp := map size keys_out in
  sm_shape g = shp /\
  exists x0 x1 rest, sm_moments g (map fst parents) = Ok (x0 :: x1 :: rest) /\
    variable_of P shp x0 /\ variable_of P (shp ++ shp) x1 /\
    (forall p, plate_in P p ->
      let Y os := sum_product_at size keysets keys_out (map o_value os) in
      let E := expect (map (fun pa => snd pa p) parents) in
      (forall o, index_in shp o ->
        bget x0 (join (length shp) p (at_index o)) = E (fun os => scale_of os * Y os o)%R) /\
      (forall o o', index_in shp o -> index_in shp o' ->
        bget x1 (join (length (shp ++ shp)) p (at_index (o ++ o'))) = E (fun os => scale_of os * (Y os o * Y os o'))%R)) /\
    if existsb (fun p => is_gamma (snd p)) nodes then
      exists x2 x3, rest = [x2; x3] /\ variable_of P [] x2 /\ variable_of P [] x3 /\
        forall p, plate_in P p ->
          bget x2 p = expect (map (fun pa => snd pa p) parents) scale_of /\
          bget x3 p = expect (map (fun pa => snd pa p) parents) (fun os => ln (scale_of os))
    else rest = [].
Proof.
  intros full nodes keysets keys_out g P parents HF HI HD.
  destruct (sm_init_ok _ _ _ _ _ HF HI) as (HV & size & HS & ->). set (gamma := existsb _ nodes) in *.
  exists size. split; [exact HS|]. intros shp. split; [reflexivity|].
  destruct (mean_ok gamma P full nodes keysets keys_out size parents HF HV HS HD) as (x0 & E0 & V0 & W0).
  destruct (second_ok gamma P full nodes keysets keys_out size parents HF HV HS HD) as (x1 & E1 & V1 & W1).
  fold shp in E0, V0, W0, E1, V1, W1.
  assert (HM : forall p, plate_in P p -> let Y os := sum_product_at size keysets keys_out (map o_value os) in
      let E := expect (map (fun pa => snd pa p) parents) in
      (forall o, index_in shp o ->
        bget x0 (join (length shp) p (at_index o)) = E (fun os => scale_of os * Y os o)%R) /\
      (forall o o', index_in shp o -> index_in shp o' ->
        bget x1 (join (length (shp ++ shp)) p (at_index (o ++ o'))) = E (fun os => scale_of os * (Y os o * Y os o'))%R)).
  { intros p Hp. cbv zeta. split; [now apply W0|now apply W1]. }
  unfold sm_moments. unfold out in E0, E1. fold shp gamma. rewrite E0. cbn [bind]. rewrite E1. cbn [bind sm_gamma].
  destruct gamma eqn:Eg; cbn [negb].
  - destruct (scale_fold true P nodes parents eq_refl HD (scalar 1%R, scalar 0%R) (scalar_upper _ _) (scalar_upper _ _)) as (x2 & x3 & E2 & B2 & B3 & W2).
    unfold sm_scale. cbn [sm_const]. rewrite E2. cbn [bind]. exists x0, x1, [x2; x3]. split; [reflexivity|].
    split; [exact V0|]. split; [exact V1|]. split; [exact HM|]. exists x2, x3. split; [reflexivity|].
    assert (Vz : forall a : arr R, broadcasts_to (ash a) P -> variable_of P [] a).
    { intros a Ha. split; [cbn; lia|]. split; [intros i Hi; cbn in Hi; lia|]. now rewrite app_nil_r. }
    split; [now apply Vz|]. split; [now apply Vz|]. intros p Hp. destruct (W2 p Hp) as [A B]. rewrite A, B. cbn [fst snd].
    unfold bget at 1 2. cbn [scalar aget].
    assert (Hone : forall d, In d (map (fun pa => snd pa p) parents) -> mean_of d (fun _ => 1%R) = 1%R).
    { intros d Hd. apply in_map_iff in Hd as [pa [<- Hpa]]. destruct (F2_in_r _ _ _ _ _ HD pa Hpa) as (nd & _ & (D1 & _)). now apply D1. }
    set (ds := map (fun pa => snd pa p) parents) in *. split.
    + rewrite Rmult_1_l. transitivity (lprod (map (fun d => mean_of d o_scale) ds)); [unfold ds; now rewrite map_map|].
      rewrite <- (lprod_combine o_scale (length ds)) by reflexivity. rewrite expect_product by apply repeat_length.
      apply expect_ext. intros os Hos. rewrite lprod_combine'; [reflexivity|]. exact (drawn_length _ _ Hos).
    + rewrite Rplus_0_l. transitivity (lsum (map (fun d => mean_of d (fun o => ln (o_scale o))) ds)); [unfold ds; now rewrite map_map|].
      rewrite <- expect_sum by exact Hone. apply expect_ext. intros os Hos. symmetry. apply lprod_pos. intros o Ho.
      destruct (drawn_in os parents p Hos o Ho) as (pa & Hpa & Hin). destruct (F2_in_r _ _ _ _ _ HD pa Hpa) as (nd & _ & (_ & D2 & _)). now apply (D2 p).
  - exists x0, x1, []. split; [reflexivity|]. split; [exact V0|]. split; [exact V1|]. split; [exact HM|reflexivity].
Qed.
Print Assumptions C46_moments.

(** ** C46: messages *)

(** Moments without Gaussian-gamma parents.  [m0], [m1] is the (already masked) message from the
    children.  The messages to a parent that is not constant do not depend on the parent's own
    moments [u] and are the coefficients of these moments in <m, u>, summed over all plates.
    Plates over which the mask is not broadcast are present in the message. *)
Theorem C46_messages : forall full ns1 dims kind ns2 keysets keys_out g P pp us1 us2 m0 m1 mask,
  let nodes := ns1 ++ (dims, kind) :: ns2 in let shp := sm_shape g in
  enumerates full keysets -> sm_init full nodes keysets keys_out = Ok g ->
  existsb (fun p => is_gamma (snd p)) nodes = false -> is_delta kind = false ->
  Forall2 (fun (nd : shape * pkind) u => shaped false P (fst nd) (snd nd) u) ns1 us1 ->
  Forall2 (fun (nd : shape * pkind) u => shaped false P (fst nd) (snd nd) u) ns2 us2 ->
  broadcasts_to pp P -> broadcasts_to (ash mask) P ->
  variable_of P shp m0 -> variable_of P (shp ++ shp) m1 ->
  (forall j, ax (ash mask) j <> 1 -> ax (ash m0) (length shp + j) <> 1 /\ ax (ash m1) (length (shp ++ shp) + j) <> 1) ->
  exists y0 y1, variable_of pp dims y0 /\ variable_of pp (dims ++ dims) y1 /\
    forall u, shaped false pp dims kind u ->
      sm_message g (length ns1) (us1 ++ u :: us2) [m0; m1] mask dims pp P = Ok [y0; y1] /\
      exists x0 x1, sm_moments g (us1 ++ u :: us2) = Ok [x0; x1] /\
        total (P ++ shp) (fun e => bget m0 e * bget x0 e)%R =
        total (pp ++ dims) (fun e => bget y0 e * bget (first_moment u) e)%R /\
        total (P ++ shp ++ shp) (fun e => bget m1 e * bget x1 e)%R =
        total (pp ++ dims ++ dims) (fun e => bget y1 e * bget (second_moment u) e)%R.
Proof.
  intros full ns1 dims kind ns2 keysets keys_out g P pp us1 us2 m0 m1 mask nodes shp HF HI HG HK U1 U2 Hpp Hmask M0 M1 Hseen.
  destruct (sm_init_ok _ _ _ _ _ HF HI) as (HV & size & HS & Eg). subst shp nodes. rewrite Eg in *. cbn [sm_shape] in *.
  assert (W : forall ns us, Forall2 (fun (nd : shape * pkind) u => shaped false P (fst nd) (snd nd) u) ns us ->
    Forall2 (fun (nd : shape * pkind) u => mom_ok P (fst nd) (is_delta (snd nd)) u) ns us).
  { intros ns us H. induction H; constructor; [eapply shaped_mom_ok; eassumption|assumption]. }
  destruct (part_and_moment P full ns1 ns2 dims kind keysets keys_out size us1 us2 (existsb (fun p => is_gamma (snd p)) (ns1 ++ (dims, kind) :: ns2)) HF HV HS HK (W _ _ U1) (W _ _ U2) false pp m0 (ash mask) Hpp M0 Hmask
    (fun j Hj => proj1 (Hseen j Hj))) as (y0 & V0 & R0).
  destruct (part_and_moment P full ns1 ns2 dims kind keysets keys_out size us1 us2 (existsb (fun p => is_gamma (snd p)) (ns1 ++ (dims, kind) :: ns2)) HF HV HS HK (W _ _ U1) (W _ _ U2) true pp m1 (ash mask) Hpp M1 Hmask
    (fun j Hj => proj2 (Hseen j Hj))) as (y1 & V1 & R1).
  exists y0, y1. split; [exact V0|]. split; [exact V1|]. intros u Hu.
  pose proof (shaped_mom_ok _ _ _ _ _ Hu) as Hu'. rewrite HK in Hu'.
  destruct (R0 u Hu') as (A0 & x0 & B0 & C0 & D0). destruct (R1 u Hu') as (A1 & x1 & B1 & C1 & D1). split.
  - unfold sm_message. cbn [sm_const sm_gamma]. rewrite map_app at 1. rewrite nth_error_app2 by (rewrite map_length; lia).
    rewrite map_length at 1. rewrite Nat.sub_diag. cbn [map nth_error snd]. rewrite HK. unfold out in A0, A1.  rewrite A0. cbn [bind].
    rewrite A1. cbn [bind]. rewrite HG. reflexivity.
  - exists x0, x1. split; [|split; [exact D0|]].
    + unfold sm_moments. unfold out in B0, B1. rewrite B0. cbn [bind]. rewrite B1. cbn [bind sm_gamma]. rewrite HG. reflexivity.
    + replace (bget (second_moment u)) with (bget (xx_of u)) by (destruct u; reflexivity). exact D1.
Qed.
Print Assumptions C46_messages.

(** The same with Gaussian-gamma moments: the messages have two more parts.  The coefficient of
    <tau> in <m, u> is the third part; <log tau> enters <m, u> with the fourth part, up to a term
    that does not depend on the parent. *)
Theorem C46_messages_gaussian_gamma : forall full ns1 dims kind ns2 keysets keys_out g P pp us1 us2 m0 m1 m2 m3 (mask : arr bool),
  let nodes := ns1 ++ (dims, kind) :: ns2 in let shp := sm_shape g in
  enumerates full keysets -> sm_init full nodes keysets keys_out = Ok g ->
  existsb (fun p => is_gamma (snd p)) nodes = true -> is_delta kind = false ->
  Forall2 (fun (nd : shape * pkind) u => shaped true P (fst nd) (snd nd) u) ns1 us1 ->
  Forall2 (fun (nd : shape * pkind) u => shaped true P (fst nd) (snd nd) u) ns2 us2 ->
  broadcasts_to pp P -> (forall k, ax P k <> 0) -> broadcasts_to (ash mask) P ->
  variable_of P shp m0 -> variable_of P (shp ++ shp) m1 -> variable_of P [] m2 -> variable_of P [] m3 ->
  (forall j, ax (ash mask) j <> 1 -> ax (ash m0) (length shp + j) <> 1 /\ ax (ash m1) (length (shp ++ shp) + j) <> 1) ->
  let masked (m : arr R) e := (bget m e * (if bget mask e then 1 else 0))%R in
  exists y0 y1 y2 y3 C, variable_of pp dims y0 /\ variable_of pp (dims ++ dims) y1 /\ variable_of pp [] y2 /\ variable_of pp [] y3 /\
    forall u, shaped true pp dims kind u ->
      sm_message g (length ns1) (us1 ++ u :: us2) [m0; m1; m2; m3] mask dims pp P = Ok [y0; y1; y2; y3] /\
      exists x0 x1 x2 x3, sm_moments g (us1 ++ u :: us2) = Ok [x0; x1; x2; x3] /\
        total (P ++ shp) (fun e => bget m0 e * bget x0 e)%R =
        total (pp ++ dims) (fun e => bget y0 e * bget (first_moment u) e)%R /\
        total (P ++ shp ++ shp) (fun e => bget m1 e * bget x1 e)%R =
        total (pp ++ dims ++ dims) (fun e => bget y1 e * bget (second_moment u) e)%R /\
        total P (fun e => masked m2 e * bget x2 e)%R = total pp (fun e => bget y2 e * bget (scale_moment u) e)%R /\
        total P (fun e => masked m3 e * bget x3 e)%R = (total pp (fun e => bget y3 e * bget (log_scale_moment u) e) + C)%R.
Proof.
  intros full ns1 dims kind ns2 keysets keys_out g P pp us1 us2 m0 m1 m2 m3 mask nodes shp HF HI HG HK U1 U2 Hpp Hnz Hmask M0 M1 M2 M3 Hseen masked.
  destruct (sm_init_ok _ _ _ _ _ HF HI) as (HV & size & HS & Eg). subst shp nodes. rewrite Eg in *. cbn [sm_shape] in *.
  assert (W : forall ns us, Forall2 (fun (nd : shape * pkind) u => shaped true P (fst nd) (snd nd) u) ns us ->
    Forall2 (fun (nd : shape * pkind) u => mom_ok P (fst nd) (is_delta (snd nd)) u) ns us).
  { intros ns us H. induction H; constructor; [eapply shaped_mom_ok; eassumption|assumption]. }
  destruct (part_and_moment P full ns1 ns2 dims kind keysets keys_out size us1 us2 (existsb (fun p => is_gamma (snd p)) (ns1 ++ (dims, kind) :: ns2)) HF HV HS HK (W _ _ U1) (W _ _ U2) false pp m0 (ash mask) Hpp M0 Hmask
    (fun j Hj => proj1 (Hseen j Hj))) as (y0 & V0 & R0).
  destruct (part_and_moment P full ns1 ns2 dims kind keysets keys_out size us1 us2 (existsb (fun p => is_gamma (snd p)) (ns1 ++ (dims, kind) :: ns2)) HF HV HS HK (W _ _ U1) (W _ _ U2) true pp m1 (ash mask) Hpp M1 Hmask
    (fun j Hj => proj2 (Hseen j Hj))) as (y1 & V1 & R1).
  destruct (scale_messages P pp ns1 dims kind ns2 us1 us2 m2 m3 mask Hpp Hnz HK Hmask M2 M3 U1 U2) as (y2 & y3 & Ea & E2 & E3 & V2 & V3 & C & HC).
  exists y0, y1, y2, y3, C. split; [exact V0|]. split; [exact V1|]. split; [exact V2|]. split; [exact V3|]. intros u Hu.
  pose proof (shaped_mom_ok _ _ _ _ _ Hu) as Hu'. rewrite HK in Hu'.
  destruct (R0 u Hu') as (A0 & x0 & B0 & C0 & D0). destruct (R1 u Hu') as (A1 & x1 & B1 & C1 & D1).
  rewrite HG in *. unfold out in *.
  destruct (HC u Hu (SM (map (map (pos full)) keysets) (map (pos full) keys_out) (length full) (deltas (ns1 ++ (dims, kind) :: ns2)) true (map size keys_out)) eq_refl)
    as (x2 & x3 & Ex & _ & _ & T2 & T3).
  split.
  - unfold sm_message. cbn [sm_const sm_gamma]. rewrite map_app at 1. rewrite nth_error_app2 by (rewrite map_length; lia).
    rewrite map_length at 1. rewrite Nat.sub_diag. cbn [map nth_error snd]. rewrite HK. rewrite A0. cbn [bind].
    rewrite A1. cbn [bind negb].
    replace (others (length ns1) (combine (us1 ++ u :: us2) (deltas (ns1 ++ (dims, kind) :: ns2)))) with (combine (us1 ++ us2) (deltas (ns1 ++ ns2))).
    + rewrite Ea. cbn [bind]. rewrite E2. cbn [bind]. rewrite E3. reflexivity.
    + pose proof (F2_length _ _ _ _ _ U1) as L1. rewrite !map_app. cbn [map snd]. rewrite !combine_app by (rewrite map_length; lia). cbn [combine].
      replace (length ns1) with (length (combine us1 (deltas ns1))) by (rewrite combine_length, map_length; lia). symmetry. apply others_app.
  - exists x0, x1, x2, x3. split; [|split; [exact D0|split; [|split; [exact T2|exact T3]]]].
    + unfold sm_moments. rewrite B0. cbn [bind]. rewrite B1. cbn [bind sm_gamma negb]. rewrite Ex. reflexivity.
    + replace (bget (second_moment u)) with (bget (xx_of u)) by (destruct u; reflexivity). exact D1.
Qed.
Print Assumptions C46_messages_gaussian_gamma.

(** No message to a parent with fixed values. *)
Theorem C46_constant_parent : forall full ns1 dims ns2 keysets keys_out g us ms mask pp P,
  sm_init full (ns1 ++ (dims, KDelta) :: ns2) keysets keys_out = Ok g -> enumerates full keysets ->
  sm_message g (length ns1) us ms mask dims pp P = Err NotImplementedError.
Proof.
  intros full ns1 dims ns2 keysets keys_out g us ms mask pp P H HF. destruct (sm_init_ok _ _ _ _ _ HF H) as (_ & size & _ & ->).
  unfold sm_message. cbn [sm_const]. rewrite map_app, nth_error_app2 by (rewrite map_length; lia). rewrite map_length, Nat.sub_diag. reflexivity.
Qed.
Print Assumptions C46_constant_parent.

(** ** Examples: a 3x2 matrix times a vector, in four plates *)

Definition ex_keys := [[5;7];[7]].
Lemma ex_full : enumerates [7;5] ex_keys.
Proof. split; [repeat constructor; cbn; intuition discriminate|]. intros k. cbn. tauto. Qed.
Definition ex_dist (tau : R) (p : env) : list outcome :=
  [Outcome (1/2)%R (Arr [3;2] (fun _ => INR (p 0))) 1%R; Outcome (1/2)%R (Arr [3;2] (fun e => INR (e 0 + e 1))) tau].
Definition ex_vector := Arr [2] (fun e => INR (e 0)).
Definition ex_gaussian := MGaussian
  (Arr [4;3;2] (fun e => mean_of (ex_dist 1 (fun k => e (k + 2)%nat)) (fun o => bget (o_value o) e)))
  (Arr [4;3;2;3;2] (fun e => mean_of (ex_dist 1 (fun k => e (k + 4)%nat)) (fun o => bget (o_value o) (fun k => e (k + 2)%nat) * bget (o_value o) e)%R)).
Definition ex_gamma := MGaussianGamma
  (Arr [4;3;2] (fun e => mean_of (ex_dist 2 (fun k => e (k + 2)%nat)) (fun o => o_scale o * bget (o_value o) e)%R))
  (Arr [4;3;2;3;2] (fun e => mean_of (ex_dist 2 (fun k => e (k + 4)%nat)) (fun o => o_scale o * (bget (o_value o) (fun k => e (k + 2)%nat) * bget (o_value o) e))%R))
  (scalar (3/2)%R) (scalar (/2 * ln 2)%R).

Lemma ex_variable : forall s P d f, s = P ++ d -> variable_of P d (Arr s f).
Proof.
  intros s P d f ->. split; [unfold ndim; cbn; rewrite app_length; lia|]. split.
  - intros i Hi. cbn [ash]. rewrite ax_app. destruct (Nat.ltb_spec i (length d)); [reflexivity|lia].
  - split; [reflexivity|]. intros k. now right.
Qed.
Lemma ex_scalar : forall P x, variable_of P [] (scalar x).
Proof. intros P x. split; [cbn; lia|]. split; [intros i Hi; cbn in Hi; lia|]. apply scalar_upper. Qed.

Lemma ex_const_ok : forall gamma, describes gamma [4] [2] KDelta (MDelta ex_vector) (fun _ => [Outcome 1 ex_vector 1]).
Proof.
  intros gamma. split; [intros p _; unfold mean_of, lsum; cbn; ring|]. split.
  { intros p o _ [<-|[]]. split; [reflexivity|cbn; lra]. }
  cbn [is_delta]. split; [split; [cbn; lia|split]|].
  - intros i Hi. reflexivity.
  - split; [cbn; lia|]. intros [|[|k]]; cbn; auto.
  - intros p o _ [<-|[]]. split; [reflexivity|]. intros i Hi. inversion Hi as [|a ? l ? H1 H2]; subst. inversion H2; subst. reflexivity.
Qed.
Lemma ex_inv : forall i, index_in [3;2] i -> exists a b, i = [a;b].
Proof. intros i H. inversion H as [|a ? l ? H1 H2]; subst. inversion H2 as [|b ? l' ? H3 H4]; subst. inversion H4. eauto. Qed.
Lemma ex_gaussian_ok : describes false [4] [3;2] KGaussian ex_gaussian (ex_dist 1).
Proof.
  split; [intros p _; unfold mean_of, lsum; cbn; field|]. split.
  { intros p o _ [<-|[<-|[]]]; (split; [reflexivity|cbn; lra]). }
  cbn [is_delta]. split; [now apply ex_variable|]. split; [now apply ex_variable|]. split; [|split].
  - intros p o _ [<-|[<-|[]]]; reflexivity.
  - intros p i Hp Hi. apply ex_inv in Hi as (a & b & ->). reflexivity.
  - intros p i j Hp Hi Hj. apply ex_inv in Hi as (a & b & ->). apply ex_inv in Hj as (c & d & ->). reflexivity.
Qed.
Lemma ex_gamma_ok : describes true [4] [3;2] KGaussianGamma ex_gamma (ex_dist 2).
Proof.
  split; [intros p _; unfold mean_of, lsum; cbn; field|]. split.
  { intros p o _ [<-|[<-|[]]]; (split; [reflexivity|cbn; lra]). }
  cbn [is_delta]. split; [now apply ex_variable|]. split; [now apply ex_variable|]. split; [apply ex_scalar|]. split; [apply ex_scalar|]. split; [|split; [|split]].
  - intros p i Hp Hi. apply ex_inv in Hi as (a & b & ->). reflexivity.
  - intros p i j Hp Hi Hj. apply ex_inv in Hi as (a & b & ->). apply ex_inv in Hj as (c & d & ->). reflexivity.
  - intros p _. unfold mean_of, lsum, bget. cbn. field.
  - intros p _. unfold mean_of, lsum, bget. cbn. rewrite ln_1. field.
Qed.

Example C46_moments_example :
  (exists g, sm_init [7;5] [([3;2], KGaussian); ([2], KDelta)] ex_keys [5] = Ok g /\ sm_shape g = [3]) /\
  Forall2 (fun (nd : shape * pkind) (pa : pmom * (env -> list outcome)) => describes false [4] (fst nd) (snd nd) (fst pa) (snd pa))
    [([3;2], KGaussian); ([2], KDelta)] [(ex_gaussian, ex_dist 1); (MDelta ex_vector, fun _ => [Outcome 1 ex_vector 1])] /\
  Forall2 (fun (nd : shape * pkind) (pa : pmom * (env -> list outcome)) => describes true [4] (fst nd) (snd nd) (fst pa) (snd pa))
    [([3;2], KGaussianGamma); ([2], KDelta)] [(ex_gamma, ex_dist 2); (MDelta ex_vector, fun _ => [Outcome 1 ex_vector 1])].
Proof.
  split; [eexists; split; reflexivity|]. split; (constructor; [|constructor; [apply ex_const_ok|constructor]]); cbn [fst snd]; [apply ex_gaussian_ok|apply ex_gamma_ok].
Qed.

(** The parent [X] of shape [3;2] has no plates, the node has four. *)
Example C46_messages_example :
  let m0 := Arr [4;3] (fun e => INR (e 0 + e 1)) in let m1 := Arr [4;3;3] (fun e => INR (e 0 * e 1 + e 2)) in
  let mask := Arr [4] (fun e => negb (e 0 =? 2)) in
  broadcasts_to [] [4] /\ broadcasts_to (ash mask) [4] /\ variable_of [4] [3] m0 /\ variable_of [4] ([3] ++ [3]) m1 /\
  (forall j, ax (ash mask) j <> 1 -> ax (ash m0) (length [3] + j) <> 1 /\ ax (ash m1) (length ([3] ++ [3]) + j) <> 1) /\
  Forall2 (fun (nd : shape * pkind) u => shaped false [4] (fst nd) (snd nd) u) [([2], KDelta)] [MDelta ex_vector] /\
  Forall2 (fun (nd : shape * pkind) u => shaped true [4] (fst nd) (snd nd) u) [([2], KDelta)] [MDelta ex_vector] /\
  shaped false [] [3;2] KGaussian (MGaussian (Arr [3;2] (fun _ => 1%R)) (Arr [3;2;3;2] (fun _ => 1%R))) /\
  shaped true [] [3;2] KGaussianGamma (MGaussianGamma (Arr [3;2] (fun _ => 1%R)) (Arr [3;2;3;2] (fun _ => 1%R)) (scalar 1%R) (scalar 0%R)).
Proof.
  cbv zeta. split; [split; [cbn; lia|]; intros k; left; apply ax_overflow; cbn; lia|]. split; [split; [cbn; lia|]; intros k; now right|].
  split; [now apply ex_variable|]. split; [now apply ex_variable|]. split.
  { intros [|[|j]] H; cbn in *; lia. }
  split; [constructor; [exact (describes_shaped _ _ _ _ _ _ (ex_const_ok false))|constructor]|].
  split; [constructor; [exact (describes_shaped _ _ _ _ _ _ (ex_const_ok true))|constructor]|].
  split; [split; now apply ex_variable|]. split; [now apply ex_variable|]. split; [now apply ex_variable|]. split; apply ex_scalar.
Qed.

(** Plates multipliers (stochastic inference): the node inherits the multiplier of a parent, as
    every node does, and the message to another parent without it should be multiplied by
    it (node.py 622-640, C08).  SumMultiply overrides _message_to_parent and never reads its
    plates_multiplier: with multiplier 2 the message is half of the coefficient. *)
Theorem C46_plates_multiplier_refuted :
  ~ (forall full ns1 dims kind ns2 keysets keys_out g P pp us1 u us2 m0 m1 mask multiplier multiplier_parent r,
     enumerates full keysets -> sm_init full (ns1 ++ (dims, kind) :: ns2) keysets keys_out = Ok g -> is_delta kind = false ->
     Forall2 (fun (nd : shape * pkind) u => shaped false P (fst nd) (snd nd) u) (ns1 ++ (dims, kind) :: ns2) (us1 ++ u :: us2) ->
     broadcasts_to multiplier_parent multiplier -> broadcasting_multiplier multiplier [multiplier_parent] = Ok r ->
     forall y x, sm_message g (length ns1) (us1 ++ u :: us2) [m0; m1] mask dims pp P = Ok y ->
       sm_moments g (us1 ++ u :: us2) = Ok x ->
       (INR r * total (P ++ sm_shape g) (fun e => bget m0 e * bget (nth 0 x m0) e))%R =
       total (pp ++ dims) (fun e => bget (nth 0 y m0) e * bget (first_moment u) e)%R).
Proof.
  intros H.
  pose (one := Arr [1] (fun _ : env => 1%R)).
  assert (S1 : forall f, shaped false [1] [] KGaussian (MGaussian (Arr [1] f) (Arr [1] f))) by (intros f; split; now apply ex_variable).
  specialize (H [] [([], KGaussian)] [] KGaussian [] [[];[]] [] (SM [[];[]] [] 0 [false;false] false []) [1] [1]
    [MGaussian one one] (MGaussian one one) [] one one (Arr [1] (fun _ => true)) [2] [] 2).
  assert (E : enumerates [] [[];[]]) by (split; [constructor|cbn; tauto]).
  specialize (H E eq_refl eq_refl ltac:(constructor; [apply S1|constructor; [apply S1|constructor]]) ltac:(split; [cbn; lia|]; intros k; left; apply ax_overflow; cbn; lia) eq_refl).
  specialize (H _ _ eq_refl eq_refl). revert H. cbn. unfold total, lsum, bget. cbn. lra.
Qed.
Print Assumptions C46_plates_multiplier_refuted.
