(** Property C11: diagonals. *)
From Coq Require Import List Arith ZArith Lia Bool Reals Lra FunctionalExtensionality.
From Verif Require Import Base Shapes SpecShapes ShapesLemmas NumPy MiscArray TensorLemmas
  EinsumLemmas SpecArray SumMultiplyLemmas PlateSumLemmas MessageLemmas ShapeOpsLemmas
  EinsumGen Diag DiagLemmas.
Import ListNotations.
Open Scope nat_scope.

(** The index of the array that element [e] of get_diag comes from: of the
    [2n] last axes of X, the last [t] and the [t] axes that end each half stay
    separate, the other [n-t] of both halves get the same index. *)
Definition diag_source (n t : nat) (e : env) : env :=
  fun k => if k <? t then e k else if k <? n then e (k + t) else e (k - n + t).

(** A square array: the last n axes and the n axes before have the same lengths. *)
Definition square (n : nat) (s : shape) : Prop :=
  2 * n <= length s /\ forall k, k < n -> ax s k = ax s (n + k).

Lemma square_dec : forall s n, 2 * n <= length s ->
  shape_eqb (last_dims s n) (mid_dims s (2 * n) n) = true <-> square n s.
Proof.
  intros s n Hn. rewrite shape_eqb_eq. split.
  - intros E. split; [exact Hn|]. intros k Hk.
    rewrite <- (ax_last_dims s n k) by lia. rewrite E, ax_mid_dims by lia. f_equal. lia.
  - intros [_ H]. apply shape_ext.
    + rewrite length_last_dims, length_mid_dims by lia. lia.
    + intro k. destruct (Nat.lt_ge_cases k n) as [L|L].
      * rewrite ax_last_dims, ax_mid_dims by lia. rewrite H by lia. f_equal. lia.
      * rewrite !ax_overflow; [reflexivity|rewrite length_mid_dims by lia; lia|
          rewrite length_last_dims by lia; lia].
Qed.

(** get_diag picks exactly the diagonal entries, for square arrays; other
    arguments raise ValueError. *)
Theorem C11_get_diag : forall X n t, 0 < n -> t <= n ->
  (square n (ash X) ->
   exists Y, get_diag X (Z.of_nat n) (Z.of_nat t) = Ok Y /\
     length (ash Y) = length (ash X) - n + t /\
     (forall k, ax (ash Y) k = ax (ash X) (if k <? t then k else k - t + n)) /\
     (forall e, valid (ash Y) e -> bget Y e = bget X (diag_source n t e))) /\
  (~ square n (ash X) -> get_diag X (Z.of_nat n) (Z.of_nat t) = Err ValueError).
Proof.
  intros X n t Hn Ht. unfold get_diag. rewrite !Nat2Z.id.
  assert ((Z.of_nat n <? 0)%Z = false) as -> by lia.
  assert ((Z.of_nat t <? 0)%Z = false) as -> by lia.
  assert ((Z.of_nat n <? Z.of_nat t)%Z = false) as -> by lia.
  assert ((Z.of_nat n =? 0)%Z = false) as -> by lia.
  destruct (Nat.ltb_spec (ndim X) (2 * n)) as [L|L].
  - split; [|reflexivity]. intros [H _]. unfold ndim in L. lia.
  - unfold ndim in L. generalize (square_dec (ash X) n L). intro SD.
    destruct (shape_eqb _ _); cbn [negb].
    2:{ split; [|reflexivity]. intro H. apply SD in H. discriminate. }
    split; [|intro H; exfalso; apply H, SD; reflexivity].
    intro Hsq. clear SD. destruct Hsq as [_ Hsq].
    destruct (Nat.eqb_spec n t) as [->|Hnt].
    + exists X. split; [reflexivity|]. split; [lia|]. split.
      * intro k. f_equal. destruct (Nat.ltb_spec k t); lia.
      * intros e He. apply bget_ext. intros k Hk _. unfold diag_source.
        destruct (Nat.ltb_spec k t); [reflexivity|]. f_equal. lia.
    + set (P := ndim X - 2 * n). set (D := n - t).
      set (out := seq 0 P ++ seq P D ++ seq (P + D) t ++ seq (P + D + t) t).
      set (inp := seq 0 P ++ seq P D ++ seq (P + D) t ++ seq P D ++ seq (P + D + t) t).
      assert (HP : P + 2 * D + 2 * t = length (ash X)) by (unfold P, D, ndim; lia).
      assert (Eout : out = seq 0 (P + D + t + t)).
      { unfold out. rewrite !seq_app, <- !app_assoc. reflexivity. }
      assert (Linp : length inp = length (ash X)).
      { unfold inp. rewrite !app_length, !seq_length. lia. }
      assert (Inp : forall i, i < length (ash X) -> nth i inp 0 =
         if i <? P + D + t then i else if i <? P + D + t + D then i - t - D else i - D).
      { intros i Hi. unfold inp.
        replace (seq 0 P ++ seq P D ++ seq (P + D) t ++ seq P D ++ seq (P + D + t) t)
          with (seq 0 (P + D + t) ++ seq P D ++ seq (P + D + t) t)
          by (rewrite !seq_app, <- !app_assoc; reflexivity).
        destruct (Nat.ltb_spec i (P + D + t)).
        - rewrite app_nth1 by (rewrite seq_length; lia). rewrite seq_nth by lia. lia.
        - rewrite app_nth2 by (rewrite seq_length; lia). rewrite seq_length.
          destruct (Nat.ltb_spec i (P + D + t + D)).
          + rewrite app_nth1 by (rewrite seq_length; lia). rewrite seq_nth by lia. lia.
          + rewrite app_nth2 by (rewrite seq_length; lia). rewrite !seq_length, seq_nth by lia. lia. }
      assert (Lab : forall l, In l (op_labels [(X, inp)]) <-> l < P + D + t + t).
      { intro l. rewrite in_op_labels. split.
        - intros [p [[<-|[]] Hl]]. simpl in Hl. unfold inp in Hl.
          rewrite !in_app_iff, !in_seq in Hl. lia.
        - intro Hl. exists (X, inp). split; [now left|]. simpl. unfold inp.
          rewrite !in_app_iff, !in_seq. lia. }
      (* the length of label l *)
      assert (Sz : forall l, l < P + D + t + t ->
        bdim (label_dims [(X, inp)] l) =
        Ok (ax (ash X) (if P + D + t + t - 1 - l <? t then P + D + t + t - 1 - l
                        else P + D + t + t - 1 - l - t + n))).
      { intros l Hl. apply bdim_ok.
        assert (Q : forall d, In d (label_dims [(X, inp)] l) -> d = 
          (ax (ash X) (if P + D + t + t - 1 - l <? t then P + D + t + t - 1 - l
                        else P + D + t + t - 1 - l - t + n))).
        { intros d Hd. apply in_label_dims in Hd as [p [i [[<-|[]] [Hi Hd]]]]. simpl in Hi, Hd.
          assert (Hil : i < length (ash X)) by (apply nth_error_Some; congruence).
          rewrite (nth_error_ax [] _ _ Hil) in Hd. injection Hd as <-.
          apply nth_error_nth with (d := 0) in Hi. rewrite Inp in Hi by exact Hil.
          destruct (Nat.ltb_spec (P + D + t + t - 1 - l) t) as [A|A].
          - destruct (Nat.ltb_spec i (P + D + t)); [lia|].
            destruct (Nat.ltb_spec i (P + D + t + D)); [lia|]. f_equal. lia.
          - destruct (Nat.ltb_spec i (P + D + t)); [f_equal; lia|].
            destruct (Nat.ltb_spec i (P + D + t + D)); [|lia].
            rewrite Hsq by lia. f_equal. lia. }
        split; [intros x Hx; right; now apply Q|]. right.
        assert (Hin : In l inp) by (unfold inp; rewrite !in_app_iff, !in_seq; lia).
        apply In_nth_error in Hin as [i Hi].
        assert (Hil : i < length (ash X)) by (rewrite <- Linp; apply nth_error_Some; congruence).
        assert (Hd : In (ax (ash X) (length (ash X) - 1 - i)) (label_dims [(X, inp)] l)).
        { apply in_label_dims. exists (X, inp), i. split; [now left|]. split; [exact Hi|].
          apply (nth_error_ax [] _ _ Hil). }
        rewrite <- (Q _ Hd). exact Hd. }
      destruct (einsum_total [(X, inp)] out) as [Y HY].
      { intros p [<-|[]]. exact Linp. }
      { intros l Hl. apply Lab. rewrite Eout in Hl. apply in_seq in Hl. lia. }
      { rewrite Eout. apply seq_NoDup. }
      { intros l Hl. apply Lab in Hl. rewrite (Sz l Hl). eauto. }
      exists Y. split; [exact HY|].
      apply einsum_ok in HY as (_ & _ & ND & HS & Hsh & Hval).
      assert (Lout : length out = P + D + t + t) by (rewrite Eout; apply seq_length).
      assert (LY : length (ash Y) = P + D + t + t) by (rewrite Hsh, map_length; exact Lout).
      split; [lia|]. split.
      { intro k. destruct (Nat.lt_ge_cases k (P + D + t + t)) as [Hk|Hk].
        - rewrite ax_nth by lia. rewrite LY, Hsh, Eout.
          rewrite nth_indep with (d' := label_size_of [(X, inp)] 0) by (rewrite map_length, seq_length; lia).
          rewrite map_nth, seq_nth by lia. simpl plus.
          unfold label_size_of. rewrite Sz by lia.
          replace (P + D + t + t - 1 - (P + D + t + t - 1 - k)) with k by lia. reflexivity.
        - rewrite !ax_overflow; [reflexivity| |lia].
          destruct (Nat.ltb_spec k t); lia. }
      intros e He. unfold bget at 1. rewrite clip_valid_id by exact He. rewrite Hval.
      assert (EF : filter (fun l => negb (memb l out)) (op_labels [(X, inp)]) = []).
      { assert (G : forall ls, (forall l, In l ls -> In l out) ->
          filter (fun l => negb (memb l out)) ls = []).
        { induction ls as [|l ls IH]; intro H; [reflexivity|]. simpl.
          rewrite (proj2 (memb_In l out)) by (apply H; now left). simpl. apply IH.
          intros; apply H; now right. }
        apply G. intros l Hl. apply Lab in Hl. rewrite Eout. apply in_seq. lia. }
      rewrite EF. cbn [map]. rewrite itersum_nil. unfold einsum_term. cbn [map fst snd lprod fold_right].
      rewrite Rmult_1_r. apply bget_ext. intros k Hk _. unfold op_env.
      assert (EA : forall l, l < P + D + t + t -> assign (rev out) e l = e (P + D + t + t - 1 - l)).
      { intros l Hl.
        assert (l = nth (P + D + t + t - 1 - l) (rev out) 0) as El.
        { rewrite rev_nth by lia. rewrite Lout, Eout, seq_nth by lia. lia. }
        rewrite El at 1. apply assign_nth; [apply NoDup_rev; exact ND|]. rewrite rev_length. lia. }
      rewrite rev_nth by lia. rewrite Linp, Inp by lia. unfold diag_source.
      destruct (Nat.ltb_spec (length (ash X) - S k) (P + D + t)).
      * rewrite EA by lia. destruct (Nat.ltb_spec k t); [lia|]. destruct (Nat.ltb_spec k n); [lia|].
        f_equal. lia.
      * destruct (Nat.ltb_spec (length (ash X) - S k) (P + D + t + D)).
        -- rewrite EA by lia. destruct (Nat.ltb_spec k t); [lia|].
           destruct (Nat.ltb_spec k n); [|lia]. f_equal. lia.
        -- rewrite EA by lia. destruct (Nat.ltb_spec k t); [|lia]. f_equal. lia.
Qed.
Print Assumptions C11_get_diag.

(** make_diag(X, n) keeps X on the diagonal and is zero elsewhere. *)
Theorem C11_make_diag : forall X n, 0 < n -> n <= length (ash X) ->
  exists Y, make_diag X (Z.of_nat n) 0 = Ok Y /\
    length (ash Y) = length (ash X) + n /\
    (forall k, ax (ash Y) k = ax (ash X) (if k <? n then k else k - n)) /\
    (forall e, valid (ash Y) e ->
      ((forall k, k < n -> e k = e (n + k)) -> bget Y e = bget X (fun k => e (n + k))) /\
      (forall k, k < n -> e k <> e (n + k) -> bget Y e = 0%R)).
Proof.
  intros X n Hn HX. unfold make_diag. rewrite !Nat2Z.id. change (Z.to_nat 0) with 0.
  assert ((Z.of_nat n <? 0)%Z = false) as -> by lia. change (0 <? 0)%Z with false.
  assert ((Z.of_nat n =? 0)%Z = false) as -> by lia. cbn [negb].
  destruct (Nat.ltb_spec (ndim X) (2 * 0)); [lia|]. cbn [Nat.ltb Nat.leb andb].
  destruct (Nat.eqb_spec n 0); [lia|].
  assert (AL : atleast_nd X (n + 0) = Ok X).
  { unfold atleast_nd. destruct (Nat.ltb_spec (ndim X) (n + 0)); [unfold ndim in *; lia|reflexivity]. }
  rewrite AL. cbn [bind].
  set (d := last_dims (ash X) n).
  assert (Ld : length d = n) by (apply length_last_dims; exact HX).
  assert (Ad : forall k, k < n -> ax d k = ax (ash X) k) by (intros; apply ax_last_dims; lia).
  destruct (identity_spec d) as [I [-> [SI VI]]]. cbn [bind].
  rewrite !Nat.sub_0_r.
  destruct (add_axes_spec R X n 0 (Nat.le_0_l _)) as [NA [SA VA]]. rewrite Nat.sub_0_r in *.
  set (A := add_axes X n (ndim X)) in *.
  set (T := mkshape (length (ash X) + n) (fun k => ax (ash X) (if k <? n then k else k - n))).
  assert (AT : forall k, ax T k = ax (ash X) (if k <? n then k else k - n)).
  { intro k. unfold T. rewrite ax_mkshape. destruct (Nat.ltb_spec k (length (ash X) + n)); [reflexivity|].
    symmetry. apply ax_overflow. destruct (Nat.ltb_spec k n); lia. }
  assert (AI : forall k, ax (ash I) k = if k <? n then ax (ash X) k
                                        else if k <? 2 * n then ax (ash X) (k - n) else 1).
  { intro k. rewrite SI, ax_app, Ld. destruct (Nat.ltb_spec k n); [apply Ad; lia|].
    destruct (Nat.ltb_spec k (2 * n)); [apply Ad; lia|]. apply ax_overflow. lia. }
  assert (BS : broadcasted_shape [ash I; ash A] = Ok T).
  { apply broadcasted_shape_ok. split; [|split].
    - intros a [<-|[<-|[]]]; unfold T; rewrite length_mkshape.
      + rewrite SI, app_length, Ld. lia.
      + unfold ndim in NA. lia.
    - right. exists (ash A). split; [simpl; auto|]. unfold T. rewrite length_mkshape.
      unfold ndim in NA. lia.
    - intro k. split.
      + intros a [<-|[<-|[]]]; rewrite AT.
        * rewrite AI. destruct (Nat.ltb_spec k n); [auto|]. destruct (k <? 2 * n); auto.
        * rewrite SA. destruct (Nat.ltb_spec k 0); [lia|].
          destruct (k <? 0 + n) eqn:Q; [left; reflexivity|right].
          apply Nat.ltb_ge in Q. destruct (Nat.ltb_spec k n); [lia|reflexivity].
      + rewrite AT. right. destruct (Nat.ltb_spec k n).
        * exists (ash I). split; [simpl; auto|]. rewrite AI. destruct (Nat.ltb_spec k n); [auto|lia].
        * exists (ash A). split; [simpl; auto|]. rewrite SA. destruct (Nat.ltb_spec k 0); [lia|].
          destruct (Nat.ltb_spec k (0 + n)); [lia|reflexivity]. }
  destruct (np_map2_total _ _ _ Rmult I A T BS) as [Y [HY SY]].
  exists Y. split; [exact HY|].
  apply np_map2_ok in HY as [_ VY].
  split; [rewrite SY; apply length_mkshape|]. split; [rewrite SY; exact AT|].
  intros e He.
  assert (EI : bget I e = if on_diagonal n e then 1%R else 0%R).
  { rewrite <- Ld. apply VI. rewrite Ld. intros k Hk. rewrite <- SI, AI.
    specialize (He k). rewrite SY, AT in He.
    destruct (Nat.ltb_spec k n); [exact He|]. destruct (Nat.ltb_spec k (2 * n)); [exact He|lia]. }
  assert (EV : bget Y e = ((if on_diagonal n e then 1 else 0) * bget X (fun k => e (n + k)%nat))%R).
  { rewrite VY, EI, VA. f_equal. apply bget_ext. intros k _ _. cbn [Nat.ltb Nat.leb]. f_equal. lia. }
  split.
  - intro HD. apply on_diagonal_iff in HD. rewrite EV, HD. lra.
  - intros k Hk Hne. rewrite EV. destruct (on_diagonal n e) eqn:E; [|lra].
    exfalso. apply Hne. apply on_diagonal_iff with (n := n); auto.
Qed.
Print Assumptions C11_make_diag.

(** Taking the diagonal of a diagonal array gives the array back. *)
Theorem C11_roundtrip : forall X n, 0 < n -> n <= length (ash X) ->
  exists Y Z, make_diag X (Z.of_nat n) 0 = Ok Y /\ get_diag Y (Z.of_nat n) 0 = Ok Z /\
    ash Z = ash X /\ forall e, valid (ash X) e -> bget Z e = bget X e.
Proof.
  intros X n Hn HX. destruct (C11_make_diag X n Hn HX) as [Y [HY [LY [AY VY]]]].
  destruct (C11_get_diag Y n 0 Hn (Nat.le_0_l _)) as [G _].
  destruct G as [Z [HZ [LZ [AZ VZ]]]].
  { split; [lia|]. intros k Hk. rewrite !AY. destruct (Nat.ltb_spec k n); [|lia].
    destruct (Nat.ltb_spec (n + k) n); [lia|]. f_equal. lia. }
  exists Y, Z. split; [exact HY|]. split; [exact HZ|].
  assert (SZ : ash Z = ash X).
  { apply shape_ext; [lia|]. intro k. rewrite AZ. cbn [Nat.ltb Nat.leb]. rewrite AY.
    destruct (Nat.ltb_spec (k - 0 + n) n); [lia|]. f_equal. lia. }
  split; [exact SZ|]. intros e He.
  rewrite VZ by (rewrite SZ; exact He).
  assert (DS : forall k, diag_source n 0 e k = if k <? n then e k else e (k - n)).
  { intro k. unfold diag_source. destruct (Nat.ltb_spec k 0); [lia|].
    rewrite !Nat.add_0_r. reflexivity. }
  set (e' := diag_source n 0 e) in *.
  assert (He' : valid (ash Y) e').
  { intro k. rewrite AY, DS. destruct (Nat.ltb_spec k n); apply He. }
  destruct (VY e' He') as [V _]. rewrite V.
  - apply bget_ext. intros k _ _. rewrite DS.
    destruct (Nat.ltb_spec (n + k) n); [lia|]. f_equal. lia.
  - intros k Hk. rewrite !DS. destruct (Nat.ltb_spec k n); [|lia].
    destruct (Nat.ltb_spec (n + k) n); [lia|]. f_equal. lia.
Qed.
Print Assumptions C11_roundtrip.

Example C11_example :
  exists Y, make_diag (Arr [2; 3] (fun e => INR (e 0 + 10 * e 1))) 1 0 = Ok Y /\ ash Y = [2; 3; 3] /\
    bget Y (at_index [1; 2; 2]) = 12%R /\ bget Y (at_index [1; 2; 1]) = 0%R.
Proof.
  set (X := Arr [2; 3] (fun e => INR (e 0 + 10 * e 1))).
  destruct (C11_make_diag X 1) as [Y [HY [LY [AY VY]]]]; [lia|simpl; lia|].
  exists Y. split; [exact HY|].
  assert (SY : ash Y = [2; 3; 3]).
  { apply shape_ext; [exact LY|]. intros [|[|[|k]]]; rewrite AY; reflexivity. }
  split; [exact SY|]. split.
  - destruct (VY (at_index [1; 2; 2])) as [V _].
    + rewrite SY. intros [|[|[|k]]]; cbn; try lia. destruct k; lia.
    + rewrite V; [cbn; lra|]. intros k Hk. assert (k = 0) as -> by lia. reflexivity.
  - destruct (VY (at_index [1; 2; 1])) as [_ V].
    + rewrite SY. intros [|[|[|k]]]; cbn; try lia. destruct k; lia.
    + apply (V 0); [lia|]. cbn. lia.
Qed.

(** With ndim_from > 0 (the adjoint that GaussianToGaussian's message uses, with
    get_diag(..., ndim_to)) the off-diagonal part of the kept axes is lost: the
    round trip does not give the array back. *)
Theorem C11_kept_axes_refuted :
  exists X Y Z, make_diag X 2 1 = Ok Y /\ get_diag Y 2 1 = Ok Z /\
    ash Z = ash X /\ valid (ash X) (at_index [0; 0; 1]) /\
    bget X (at_index [0; 0; 1]) = 1%R /\ bget Z (at_index [0; 0; 1]) = 0%R.
Proof.
  set (X := Arr [1; 2; 2] (fun _ => 1%R)).
  destruct (identity_spec [1; 2]) as [I [HI [SI VI]]].
  destruct (add_axes_spec R X 1 1) as [NA [SA VA]]; [cbn; lia|].
  set (A := add_axes X 1 (ndim X - 1)) in *.
  assert (SA' : ash A = [1; 2; 1; 2]) by reflexivity.
  destruct (np_map2_total _ _ _ Rmult I A [1; 2; 1; 2]) as [Y [HY SY]].
  { rewrite SI, SA'. reflexivity. }
  assert (MY : make_diag X 2 1 = Ok Y).
  { transitivity (I <- identity [1; 2] ;; np_multiply I A); [reflexivity|].
    rewrite HI. exact HY. }
  destruct (C11_get_diag Y 2 1) as [G _]; [lia|lia|].
  destruct G as [Z [HZ [LZ [AZ VZ]]]].
  { rewrite SY. split; [cbn; lia|]. intros [|[|k]] Hk; try reflexivity. lia. }
  exists X, Y, Z. split; [exact MY|]. split; [exact HZ|].
  assert (SZ : ash Z = ash X).
  { apply shape_ext; [rewrite LZ, SY; reflexivity|]. intros [|[|[|k]]]; rewrite AZ, SY; try reflexivity.
    rewrite !ax_overflow by (cbn; lia). reflexivity. }
  split; [exact SZ|].
  assert (V : valid (ash X) (at_index [0; 0; 1])).
  { intros [|[|[|k]]]; cbn; try lia. destruct k; lia. }
  split; [exact V|]. split; [reflexivity|].
  rewrite VZ by (rewrite SZ; exact V).
  apply np_map2_ok in HY as [_ VY]. rewrite VY. rewrite VI.
  - cbn. lra.
  - intros [|[|[|[|k]]]] Hk; cbn in *; try lia.
Qed.
Print Assumptions C11_kept_axes_refuted.
