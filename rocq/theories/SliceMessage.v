(** Lemmas for C13: the message a sliced node sends. *)
From Coq Require Import List Arith ZArith Lia Bool Reals Lra FunctionalExtensionality.
From Verif Require Import Base Shapes SpecShapes ShapesLemmas NumPy MiscArray TensorLemmas
  SpecArray PlateSumLemmas ShapeOpsLemmas MessageLemmas Reindex PlateNodes SpecPlateNodes SliceLemmas SliceMoments.
Import ListNotations.
Open Scope nat_scope.

(** A slice that covers its axis reads a broadcast axis correctly. *)
Lemma cover : forall a b st n, slice_indices (Some a) (Some b) (Some st) n = Ok (a, b, st) -> slicelen a b st = n ->
  (0 <= b)%Z -> 0 < n -> a = 0%Z /\ (1 < n -> st = 1%Z) /\
  exists b', slice_indices (Some a) (Some b) (Some st) 1 = Ok (0%Z, b', st) /\ slicelen 0 b' st = 1.
Proof.
  intros a b st n E L B N. pose proof (indices_step _ _ _ _ _ _ _ E) as Hs.
  assert (R : forall q, q < n -> (0 <= a + st * Z.of_nat q < Z.of_nat n)%Z) by (intros q Hq; apply (indices_range _ _ _ _ _ _ _ _ E); lia).
  destruct (Nat.eq_dec n 1) as [->|N1].
  - assert (a = 0%Z) as -> by (specialize (R 0 ltac:(lia)); lia). split; [reflexivity|]. split; [lia|]. exists b. split; [exact E|exact L].
  - assert (Hst : (st = 1 \/ st = -1)%Z).
    { pose proof (R 0 ltac:(lia)). pose proof (R (n - 1) ltac:(lia)).
      destruct (Z_lt_ge_dec 0 st); [left|right].
      - assert (st * Z.of_nat (n - 1) <= Z.of_nat (n - 1))%Z by lia. assert (0 < Z.of_nat (n - 1))%Z by lia. nia.
      - assert (- Z.of_nat (n - 1) <= st * Z.of_nat (n - 1))%Z by lia. assert (0 < Z.of_nat (n - 1))%Z by lia. nia. }
    destruct Hst as [-> | ->].
    + assert (a = 0%Z) as -> by (pose proof (R 0 ltac:(lia)); pose proof (R (n - 1) ltac:(lia)); lia).
      split; [reflexivity|]. split; [reflexivity|]. exists 1%Z.
      assert (1 <= b)%Z.
      { assert (0 < slicelen 0 b 1) by lia. apply (slicelen_spec 0 b 1 0 Hs) in H. cbn in H. lia. }
      unfold slice_indices. change (1 =? 0)%Z with false. change (1 <? 0)%Z with false. cbv zeta iota.
      change (0 <? 0)%Z with false. cbv iota. destruct (Z.ltb_spec b 0); [lia|]. rewrite Z.min_l by lia. rewrite Z.min_r by lia. split; reflexivity.
    + exfalso. assert (a = Z.of_nat n - 1)%Z by (pose proof (R 0 ltac:(lia)); pose proof (R (n - 1) ltac:(lia)); lia).
      assert (Q1 : n - 1 < slicelen a b (-1)) by lia. apply (slicelen_spec a b (-1) _ Hs) in Q1. cbn [Z.ltb Z.compare] in Q1. lia.
Qed.

Fixpoint strip (sl : list idx) (q : list nat) : list nat :=
  match sl, q with
  | INew :: r, _ :: q' => strip r q'
  | ISlice _ _ _ :: r, x :: q' => x :: strip r q'
  | IInt _ :: r, _ => strip r q
  | _, _ => []
  end.

Lemma skipn_suffix : forall (mp : list nat) i, i < length mp -> skipn (length mp - S i) mp = ax mp i :: skipn (length mp - i) mp.
Proof.
  intros mp i H. set (k := length mp - S i). replace (length mp - i) with (S k) by lia.
  assert (Hk : k < length mp) by lia. rewrite ax_nth by exact H. replace (length mp - 1 - i) with k by lia.
  clearbody k. clear i H. revert k Hk. induction mp as [|x mp IH]; intros k Hk; [cbn in Hk; lia|].
  destruct k; [reflexivity|]. cbn [skipn nth]. apply IH. cbn in Hk. lia.
Qed.

Lemma Some_inj : forall A (x y : A), Some x = Some y -> x = y.
Proof. congruence. Qed.

(** One sliced axis of the message. *)
Definition axis_inv (a b st : Z) (z x : nat) : option nat :=
  match slice_indices (Some a) (Some b) (Some st) z with
  | Ok (a', b', st') =>
      let q := ((Z.of_nat x - a') / st')%Z in
      if ((a' + st' * q =? Z.of_nat x) && (0 <=? q) && (q <? Z.of_nat (slicelen a' b' st')))%Z then Some (Z.to_nat q) else None
  | Err _ => None
  end.
Lemma inv_slice : forall a b st ps z s x t,
  getitem_inv (ISlice (Some a) (Some b) (Some st) :: ps) (z :: s) (x :: t) =
  match axis_inv a b st z x with Some q => option_map (cons q) (getitem_inv ps s t) | None => None end.
Proof.
  intros. cbn [getitem_inv]. unfold axis_inv. destruct (slice_indices (Some a) (Some b) (Some st) z) as [[[a' b'] st']|]; [|reflexivity].
  cbv zeta. destruct (_ && _)%bool; reflexivity.
Qed.

Lemma len_le : forall a b st n, slice_indices (Some a) (Some b) (Some st) n = Ok (a, b, st) -> slicelen a b st <= n.
Proof.
  intros a b st n E. set (len := slicelen a b st). destruct (Nat.le_gt_cases len n) as [|G]; [assumption|exfalso].
  pose proof (indices_range _ _ _ _ _ _ _ 0 E ltac:(fold len; lia)). pose proof (indices_range _ _ _ _ _ _ _ (len - 1) E ltac:(fold len; lia)).
  pose proof (indices_step _ _ _ _ _ _ _ E).
  assert (Z.of_nat n <= Z.of_nat (len - 1))%Z by lia. destruct (Z_lt_ge_dec 0 st); nia.
Qed.

Lemma axis_ok : forall a b st n mu, slice_indices (Some a) (Some b) (Some st) n = Ok (a, b, st) -> 0 < slicelen a b st ->
  (0 <= b)%Z -> mu = 1 \/ mu = slicelen a b st ->
  exists z w, (if (mu =? 1) && (slicelen a b st =? n) then 1 else n) = z /\ bc1 z n /\
    (exists a' b', slice_indices (Some a) (Some b) (Some st) z = Ok (a', b', st) /\ slicelen a' b' st = w) /\
    (mu = 1 \/ mu = w) /\
    (forall x, x < n -> match axis_inv a b st z (if z =? 1 then 0 else x) with
       | Some q0 => exists q1, q1 < slicelen a b st /\ Z.of_nat x = (a + st * Z.of_nat q1)%Z /\ (mu = 1 \/ q0 = q1)
       | None => forall q1, q1 < slicelen a b st -> Z.of_nat x <> (a + st * Z.of_nat q1)%Z
       end).
Proof.
  intros a b st n mu E L B M. pose proof (len_le _ _ _ _ E) as Ln. pose proof (indices_step _ _ _ _ _ _ _ E) as Hs.
  destruct ((mu =? 1) && (slicelen a b st =? n)) eqn:C.
  - apply andb_true_iff in C as [C1 C2]. apply Nat.eqb_eq in C1, C2. subst mu.
    destruct (cover a b st n E C2 B ltac:(lia)) as (-> & S1 & b' & E1 & E2).
    exists 1, 1. split; [reflexivity|]. split; [now left|]. split; [exists 0%Z, b'; auto|]. split; [now left|].
    intros x Hx. cbn [Nat.eqb]. unfold axis_inv. rewrite E1, E2. cbv zeta. cbn [Z.of_nat Z.sub Z.opp Z.add]. rewrite Z.div_0_l by exact Hs.
    rewrite Z.mul_0_r. cbn. exists x. split; [lia|]. split; [|now left]. destruct (Nat.eq_dec n 1); [replace x with 0 by lia; lia|rewrite S1 by lia; lia].
  - exists n, (slicelen a b st). split; [reflexivity|]. split; [now right|]. split; [exists a, b; auto|]. split; [exact M|].
    assert (N1 : n <> 1).
    { intros ->. assert (E1 : slicelen a b st = 1) by lia. rewrite E1 in *. destruct M as [-> | ->]; discriminate. }
    apply Nat.eqb_neq in N1. rewrite N1. intros x Hx. unfold axis_inv. rewrite E. cbv zeta.
    match goal with |- context [if ?c then Some _ else None] => destruct c eqn:T end.
    + apply andb_true_iff in T as [T T3]. apply andb_true_iff in T as [T1 T2]. apply Z.eqb_eq in T1. apply Z.leb_le in T2. apply Z.ltb_lt in T3.
      exists (Z.to_nat ((Z.of_nat x - a) / st)). rewrite Z2Nat.id by lia. split; [lia|]. split; [lia|now right].
    + intros q1 Hq1 X. assert (D : ((Z.of_nat x - a) / st)%Z = Z.of_nat q1).
      { rewrite X. replace (a + st * Z.of_nat q1 - a)%Z with (Z.of_nat q1 * st)%Z by lia. now apply Z.div_mul. }
      rewrite D in T. replace ((a + st * Z.of_nat q1 =? Z.of_nat x)%Z) with true in T by (symmetry; apply Z.eqb_eq; lia).
      replace (0 <=? Z.of_nat q1)%Z with true in T by (symmetry; apply Z.leb_le; lia).
      replace (Z.of_nat q1 <? Z.of_nat (slicelen a b st))%Z with true in T by (symmetry; apply Z.ltb_lt; lia). discriminate.
Qed.

Lemma full_indices : forall n, slice_indices None None None n = Ok (0%Z, Z.of_nat n, 1%Z).
Proof. reflexivity. Qed.
Lemma full_len : forall n, slicelen 0 (Z.of_nat n) 1 = n.
Proof. intros. unfold slicelen, ceil_div. rewrite Z.sub_0_r, Z.div_1_r. lia. Qed.

Lemma rev_ok : forall sl P Q, good sl P Q -> forall (mp D d d' : list nat),
  (forall i, i < length Q -> ax mp i = 1 \/ ax mp i = ax Q i) ->
  exists cs ps Z V W, reverse_loop sl mp (D ++ P) = Ok (Rev (length Q) (length P) cs ps Z) /\
    length ps = length P /\ (mp = [] -> cs = []) /\ Forall2 bc1 Z P /\
    let sfx := skipn (length mp - length Q) mp in
    getitem_shape cs (sfx ++ d') = Ok (V ++ d') /\
    (length Q <= length mp -> length V = length W) /\ length V <= length W /\ (forall k, ax V k = 1 \/ ax V k = ax W k) /\
    getitem_shape ps (Z ++ d) = Ok (W ++ d) /\
    (forall q, Forall2 lt q Q -> length (strip sl q) = length W) /\
    (forall q lv, Forall2 lt q Q -> exists src, getitem_src cs (sfx ++ d') (lclip V (strip sl q) ++ lv) = src ++ lv /\
       length src = length sfx /\ forall k, ax sfx k <> 1 -> at_index src k = at_index q k) /\
    (forall p lv, Forall2 lt p P ->
       match getitem_inv ps (Z ++ d) (lclip Z p ++ lv) with
       | None => forall q, Forall2 lt q Q -> getitem_src sl P q <> p
       | Some t => exists r q, t = r ++ lv /\ Forall2 lt q Q /\ getitem_src sl P q = p /\ length r = length W /\
                     lclip V r = lclip V (strip sl q)
       end).
Proof.
  intros sl P Q H. induction H as [|i r n P Q R H IH|a b st r n P Q E L B H IH|r P Q H IH]; intros mp D d d' BC.
  - exists [], [], [], [], []. split; [reflexivity|]. split; [reflexivity|]. split; [reflexivity|]. split; [constructor|]. cbv zeta.
    cbn [length]. rewrite Nat.sub_0_r, skipn_all. cbn [app length].
    split; [reflexivity|]. split; [reflexivity|]. split; [lia|]. split; [intros k; now right|]. split; [reflexivity|].
    split; [intros q Hq; inversion Hq; reflexivity|]. split.
    + intros q lv Hq. exists []. split; [cbn; destruct d', lv; reflexivity|]. split; [reflexivity|]. intros k N. exfalso. apply N. now rewrite ax_nil.
    + intros p lv Hp. cbn. destruct d, lv; exists [], []; inversion Hp; subst; repeat (split; [constructor|]); reflexivity.
  - destruct (IH mp (D ++ [n]) d d' BC) as (cs & ps & Z & V & W & E1 & Ep & Ec & EZ & C1 & C2 & C3 & C4 & C5 & C6 & C7 & C8). cbv zeta in *.
    rewrite <- app_assoc in E1. cbn [app] in E1.
    exists cs, (IInt i :: ps), (n :: Z), V, W. split.
    { cbn [reverse_loop]. rewrite E1. cbn [bind]. rewrite ax_app. cbn [length]. replace (length P <? S (length P)) with true by (symmetry; apply Nat.ltb_lt; lia).
      now rewrite ax_cons, Nat.eqb_refl. }
    split; [cbn; lia|]. split; [exact Ec|]. split; [constructor; [now right|exact EZ]|].
    split; [exact C1|]. split; [exact C2|]. split; [exact C3|]. split; [exact C4|]. split.
    { cbn [app getitem_shape]. replace ((- Z.of_nat n <=? i)%Z && (i <? Z.of_nat n)%Z) with true; [exact C5|].
      symmetry. apply andb_true_iff. split; [apply Z.leb_le|apply Z.ltb_lt]; lia. }
    split; [exact C6|]. split; [exact C7|].
    intros p lv Hp. inversion Hp as [|x ? p' ? Hx Hp']; subst.
    rewrite lclip_head by (apply F2_length in EZ; apply F2_length in Hp'; lia). cbn [app getitem_inv].
    replace (if (i <? 0)%Z then (i + Z.of_nat n)%Z else i) with i by (destruct (Z.ltb_spec i 0); lia).
    replace (if n =? 1 then 0 else x) with x by (destruct (Nat.eqb_spec n 1); lia).
    assert (GS : forall q, getitem_src (IInt i :: r) (n :: P) q = Z.to_nat i :: getitem_src r P q).
    { intros q. cbn [getitem_src]. replace (if (i <? 0)%Z then (i + Z.of_nat n)%Z else i) with i by (destruct (Z.ltb_spec i 0); lia). reflexivity. }
    specialize (C8 p' lv Hp'). destruct (Nat.eqb_spec x (Z.to_nat i)) as [->|N].
    + destruct (getitem_inv ps (Z ++ d) (lclip Z p' ++ lv)) as [t|].
      * destruct C8 as (r' & q & -> & Hq & E2 & E3 & E4). exists r', q. split; [reflexivity|]. split; [exact Hq|]. split; [rewrite GS; now f_equal|]. auto.
      * intros q Hq. rewrite GS. intros X. injection X as X. now apply (C8 q Hq).
    + intros q Hq. rewrite GS. intros X. injection X as X _. lia.
  - assert (BC' : forall i, i < length Q -> ax mp i = 1 \/ ax mp i = ax Q i).
    { intros i Hi. specialize (BC i). cbn [length] in BC. rewrite ax_cons in BC. destruct (Nat.eqb_spec i (length Q)); [lia|]. apply BC. lia. }
    assert (Bh : ax mp (length Q) = 1 \/ ax mp (length Q) = slicelen a b st).
    { specialize (BC (length Q)). cbn [length] in BC. rewrite ax_cons, Nat.eqb_refl in BC. apply BC. lia. }
    destruct (IH mp (D ++ [n]) d d' BC') as (cs & ps & Z & V & W & E1 & Ep & Ec & EZ & C1 & C2 & C3 & C4 & C5 & C6 & C7 & C8). cbv zeta in *.
    rewrite <- app_assoc in E1. cbn [app] in E1. set (mu := ax mp (length Q)) in *. set (len := slicelen a b st) in *.
    assert (M1 : length mp <= length Q -> mu = 1) by (intros; unfold mu; now apply ax_overflow).
    assert (EB : ((length mp <=? length Q) || (mu =? 1)) = (mu =? 1)).
    { destruct (Nat.leb_spec (length mp) (length Q)); [rewrite (M1 H0)|]; reflexivity. }
    assert (EC : ((length mp <=? length Q) || (mu =? 1)) && (len =? n) = (mu =? 1) && (len =? n)) by now rewrite EB.
    destruct (axis_ok a b st n mu E L B Bh) as (z & w & Ez & Bz & (a' & b' & Ea & Ew) & Bw & Hinv). fold len in Ez, Hinv.
    assert (RL : reverse_loop (ISlice (Some a) (Some b) (Some st) :: r) mp (D ++ n :: P) =
                 Ok (Rev (S (length Q)) (S (length P)) (if length Q <? length mp then full_slice :: cs else cs)
                      (ISlice (Some a) (Some b) (Some st) :: ps) (z :: Z))).
    { cbn [reverse_loop]. rewrite E1. cbn [bind]. rewrite ax_app. cbn [length]. replace (length P <? S (length P)) with true by (symmetry; apply Nat.ltb_lt; lia).
      rewrite ax_cons, Nat.eqb_refl. fold mu. fold len. now rewrite EC, Ez. }
    exists (if length Q <? length mp then full_slice :: cs else cs), (ISlice (Some a) (Some b) (Some st) :: ps), (z :: Z),
      (if length Q <? length mp then mu :: V else V), (w :: W).
    split; [exact RL|]. split; [cbn; lia|].
    assert (SPL : getitem_shape (ISlice (Some a) (Some b) (Some st) :: ps) ((z :: Z) ++ d) = Ok ((w :: W) ++ d)).
    { cbn [app getitem_shape]. rewrite Ea. cbn [bind]. rewrite C5. cbn [bind]. now rewrite Ew. }
    assert (GS : forall x q, x < len -> getitem_src (ISlice (Some a) (Some b) (Some st) :: r) (n :: P) (x :: q) = Z.to_nat (a + st * Z.of_nat x) :: getitem_src r P q).
    { intros x q _. cbn [getitem_src]. now rewrite E. }
    assert (INV : forall x p' lv, x < n -> Forall2 lt p' P ->
        match getitem_inv (ISlice (Some a) (Some b) (Some st) :: ps) ((z :: Z) ++ d) (lclip (z :: Z) (x :: p') ++ lv) with
        | None => forall q, Forall2 lt q (len :: Q) -> getitem_src (ISlice (Some a) (Some b) (Some st) :: r) (n :: P) q <> x :: p'
        | Some t => exists q0 q1 r' q, t = (q0 :: r') ++ lv /\ q1 < len /\ Forall2 lt q Q /\
            getitem_src (ISlice (Some a) (Some b) (Some st) :: r) (n :: P) (q1 :: q) = x :: p' /\ length r' = length W /\
            lclip V r' = lclip V (strip r q) /\ (mu = 1 \/ q0 = q1)
        end).
    { intros x p' lv Hx Hp'. rewrite lclip_head by (apply F2_length in EZ; apply F2_length in Hp'; lia). cbn [app].
      rewrite inv_slice. specialize (Hinv x Hx). specialize (C8 p' lv Hp').
      destruct (axis_inv a b st z (if z =? 1 then 0 else x)) as [q0|].
      - destruct Hinv as (q1 & Hq1 & X1 & X2). destruct (getitem_inv ps (Z ++ d) (lclip Z p' ++ lv)) as [t|]; cbn [option_map].
        + destruct C8 as (r' & q & -> & Hq & E2 & E3 & E4). exists q0, q1, r', q. split; [reflexivity|]. split; [exact Hq1|]. split; [exact Hq|].
          split; [rewrite GS by exact Hq1; rewrite E2; f_equal; lia|]. auto.
        + intros q Hq X. inversion Hq as [|y ? q' ? Hy Hq']; subst. rewrite GS in X by exact Hy. apply (f_equal (@tl nat)) in X. cbn [tl] in X.
          now apply (C8 q' Hq').
      - intros q Hq X. inversion Hq as [|y ? q' ? Hy Hq']; subst. rewrite GS in X by exact Hy. apply (f_equal (hd 0)) in X. cbn [hd] in X.
        apply (Hinv y Hy). pose proof (indices_range _ _ _ _ _ _ _ _ E Hy). lia. }
    assert (ST : forall x q, strip (ISlice (Some a) (Some b) (Some st) :: r) (x :: q) = x :: strip r q) by reflexivity.
    destruct (Nat.ltb_spec (length Q) (length mp)) as [LM|LM].
    + specialize (C2 ltac:(lia)). split; [intros ->; cbn in LM; lia|]. split; [constructor; [exact Bz|exact EZ]|]. cbn [length].
      assert (SF : skipn (length mp - S (length Q)) mp = mu :: skipn (length mp - length Q) mp) by (apply skipn_suffix; exact LM).
      rewrite SF. set (sfx := skipn (length mp - length Q) mp) in *.
      assert (Lsfx : length sfx = length Q) by (unfold sfx; rewrite skipn_length; lia).
      split. { unfold full_slice. cbn [app getitem_shape]. rewrite full_indices. cbn [bind]. rewrite C1. cbn [bind]. now rewrite full_len. }
      split; [intros; lia|]. split; [lia|]. split.
      { intros k. rewrite !ax_cons, C2. destruct (Nat.eqb_spec k (length W)); [exact Bw|apply C4]. }
      split; [exact SPL|]. split.
      { intros q Hq. inversion Hq as [|x ? q' ? Hx Hq']; subst. rewrite ST. cbn [length]. now rewrite (C6 q' Hq'). }
      split.
      * intros q lv Hq. inversion Hq as [|x ? q' ? Hx Hq']; subst. rewrite ST. rewrite lclip_head by (rewrite (C6 q' Hq'); exact C2).
        destruct (C7 q' lv Hq') as (src & S1 & S2 & S3). exists ((if mu =? 1 then 0 else x) :: src).
        split. { unfold full_slice. cbn [app getitem_src]. rewrite full_indices. cbv iota. rewrite S1. f_equal. lia. }
        split; [cbn; lia|]. intros k N. rewrite ax_cons in N. rewrite !at_index_cons. unfold upd. rewrite S2, (F2_length _ _ _ _ _ Hq'), Lsfx. rewrite Lsfx in N.
        destruct (Nat.eqb_spec k (length Q)); [|now apply S3].
        apply Nat.eqb_neq in N. now rewrite N.
      * intros p lv Hp. inversion Hp as [|x ? p' ? Hx Hp']; subst. specialize (INV x p' lv Hx Hp').
        destruct (getitem_inv _ _ _) as [t|]; [|exact INV].
        destruct INV as (q0 & q1 & r' & q & -> & Hq1 & Hq & E2 & E3 & E4 & E5). exists (q0 :: r'), (q1 :: q). split; [reflexivity|].
        split; [now constructor|]. split; [exact E2|]. split; [cbn; lia|]. rewrite ST.
        rewrite lclip_head by lia. rewrite lclip_head by (rewrite (C6 q Hq); exact C2). rewrite E4. f_equal.
        destruct E5 as [-> | ->]; reflexivity.
    + split; [intros; now apply Ec|]. split; [constructor; [exact Bz|exact EZ]|]. cbn [length].
      replace (length mp - S (length Q)) with 0 by lia. replace (length mp - length Q) with 0 in * by lia. cbn [skipn] in *.
      split; [exact C1|]. split; [intros; lia|]. split; [lia|]. split.
      { intros k. rewrite ax_cons. destruct (Nat.eqb_spec k (length W)); [left; apply ax_overflow; lia|apply C4]. }
      split; [exact SPL|]. split.
      { intros q Hq. inversion Hq as [|x ? q' ? Hx Hq']; subst. rewrite ST. cbn [length]. now rewrite (C6 q' Hq'). }
      split.
      * intros q lv Hq. inversion Hq as [|x ? q' ? Hx Hq']; subst. rewrite ST. rewrite lclip_tail by (rewrite (C6 q' Hq'); exact C3).
        destruct (C7 q' lv Hq') as (src & S1 & S2 & S3). exists src. split; [exact S1|]. split; [exact S2|].
        intros k N. rewrite S3 by exact N. symmetry. apply at_index_tail. rewrite (F2_length _ _ _ _ _ Hq').
        destruct (Nat.lt_ge_cases k (length Q)); [assumption|]. exfalso. apply N, ax_overflow. lia.
      * intros p lv Hp. inversion Hp as [|x ? p' ? Hx Hp']; subst. specialize (INV x p' lv Hx Hp').
        destruct (getitem_inv _ _ _) as [t|]; [|exact INV].
        destruct INV as (q0 & q1 & r' & q & -> & Hq1 & Hq & E2 & E3 & E4 & E5). exists (q0 :: r'), (q1 :: q). split; [reflexivity|].
        split; [now constructor|]. split; [exact E2|]. split; [cbn; lia|]. rewrite ST.
        rewrite lclip_tail by lia. rewrite lclip_tail by (rewrite (C6 q Hq); exact C3). exact E4.
  - assert (BC' : forall i, i < length Q -> ax mp i = 1 \/ ax mp i = ax Q i).
    { intros i Hi. specialize (BC i). cbn [length] in BC. rewrite ax_cons in BC. destruct (Nat.eqb_spec i (length Q)); [lia|]. apply BC. lia. }
    assert (Bh : ax mp (length Q) = 1).
    { specialize (BC (length Q)). cbn [length] in BC. rewrite ax_cons, Nat.eqb_refl in BC. destruct BC; [lia|assumption|assumption]. }
    destruct (IH mp D d d' BC') as (cs & ps & Z & V & W & E1 & Ep & Ec & EZ & C1 & C2 & C3 & C4 & C5 & C6 & C7 & C8). cbv zeta in *.
    assert (GS : forall x q, getitem_src (INew :: r) P (x :: q) = getitem_src r P q) by (intros; destruct P; reflexivity).
    exists (if length Q <? length mp then IInt 0 :: cs else cs), ps, Z, V, W.
    split; [cbn [reverse_loop]; rewrite E1; reflexivity|]. split; [exact Ep|].
    assert (INV : forall p lv, Forall2 lt p P ->
        match getitem_inv ps (Z ++ d) (lclip Z p ++ lv) with
        | None => forall q, Forall2 lt q (1 :: Q) -> getitem_src (INew :: r) P q <> p
        | Some t => exists r0 q, t = r0 ++ lv /\ Forall2 lt q (1 :: Q) /\ getitem_src (INew :: r) P q = p /\
            length r0 = length W /\ lclip V r0 = lclip V (strip (INew :: r) q)
        end).
    { intros p lv Hp. specialize (C8 p lv Hp). destruct (getitem_inv ps (Z ++ d) (lclip Z p ++ lv)) as [t|].
      - destruct C8 as (r' & q & -> & Hq & E2 & E3 & E4). exists r', (0 :: q). split; [reflexivity|]. split; [constructor; [lia|exact Hq]|].
        rewrite GS. auto.
      - intros q Hq. inversion Hq as [|x ? q' ? Hx Hq']; subst. rewrite GS. now apply C8. }
    destruct (Nat.ltb_spec (length Q) (length mp)) as [LM|LM].
    + split; [intros ->; cbn in LM; lia|]. split; [exact EZ|]. cbn [length].
      assert (SF : skipn (length mp - S (length Q)) mp = 1 :: skipn (length mp - length Q) mp) by (rewrite <- Bh; apply skipn_suffix; exact LM).
      rewrite SF. set (sfx := skipn (length mp - length Q) mp) in *.
      assert (Lsfx : length sfx = length Q) by (unfold sfx; rewrite skipn_length; lia).
      split; [cbn [app getitem_shape]; exact C1|]. split; [intros; apply C2; lia|]. split; [exact C3|]. split; [exact C4|]. split; [exact C5|].
      split; [intros q Hq; inversion Hq; subst; cbn [strip]; now apply C6|]. split; [|exact INV].
      intros q lv Hq. inversion Hq as [|x ? q' ? Hx Hq']; subst. cbn [strip].
      destruct (C7 q' lv Hq') as (src & S1 & S2 & S3). exists (0 :: src). split; [cbn [app getitem_src]; rewrite S1; reflexivity|].
      split; [cbn; lia|]. intros k N. rewrite ax_cons in N. rewrite !at_index_cons. unfold upd. rewrite S2, (F2_length _ _ _ _ _ Hq'), Lsfx. rewrite Lsfx in N.
      destruct (Nat.eqb_spec k (length Q)); [contradiction|now apply S3].
    + split; [intros; now apply Ec|]. split; [exact EZ|]. cbn [length].
      replace (length mp - S (length Q)) with 0 by lia. replace (length mp - length Q) with 0 in * by lia. cbn [skipn] in *.
      split; [exact C1|]. split; [intros; lia|]. split; [exact C3|]. split; [exact C4|]. split; [exact C5|].
      split; [intros q Hq; inversion Hq; subst; cbn [strip]; now apply C6|]. split; [|exact INV].
      intros q lv Hq. inversion Hq as [|x ? q' ? Hx Hq']; subst. cbn [strip].
      destruct (C7 q' lv Hq') as (src & S1 & S2 & S3). exists src. split; [exact S1|]. split; [exact S2|].
      intros k N. rewrite S3 by exact N. symmetry. apply at_index_tail. rewrite (F2_length _ _ _ _ _ Hq').
      destruct (Nat.lt_ge_cases k (length Q)); [assumption|]. exfalso. apply N, ax_overflow. lia.
Qed.

Lemma getitem_all : forall (m : arr R), exists v, np_getitem m [] = Ok v /\ ash v = ash m /\ forall q, bget v (at_index q) = bget m (at_index q).
Proof.
  intros m. eexists. split; [reflexivity|]. split; [reflexivity|]. intros q. unfold bget at 1. cbn [ash aget].
  assert (E : forall s e, getitem_src [] s e = e) by (intros [|? ?] [|? ?]; reflexivity). rewrite E, indices_of_clip. apply bget_lclip.
Qed.

Lemma slice_message_ok : forall sl P Q d (m : arr R), good sl P Q -> length d <= ndim m -> broadcasts_to (ash m) (Q ++ d) ->
  exists y, reverse_indexing sl m P d = Ok y /\ broadcasts_to (ash y) (P ++ d) /\
    (forall q v, Forall2 lt q Q -> length v = length d ->
       bget y (at_index (getitem_src sl P q ++ v)) = bget m (at_index (q ++ v))) /\
    (forall p v, Forall2 lt p P -> length v = length d -> (forall q, Forall2 lt q Q -> getitem_src sl P q <> p) ->
       bget y (at_index (p ++ v)) = 0%R).
Proof.
  intros sl P Q d m G Ld [BL BA]. unfold reverse_indexing. set (k := ndim m - length d).
  set (mp := firstn k (ash m)). set (d' := skipn k (ash m)).
  assert (Em : ash m = mp ++ d') by (symmetry; apply firstn_skipn).
  assert (Ls : length mp = k) by (unfold mp; rewrite firstn_length; unfold k, ndim in *; lia).
  assert (Ld' : length d' = length d) by (unfold d'; rewrite skipn_length; unfold k, ndim in *; lia).
  assert (LP : length mp <= length Q) by (rewrite app_length in BL; unfold k, ndim in *; lia).
  assert (BC : forall i, i < length Q -> ax mp i = 1 \/ ax mp i = ax Q i).
  { intros j _. specialize (BA (j + length d)). rewrite Em, !ax_app, Ld' in BA.
    replace (j + length d <? length d) with false in BA by (symmetry; apply Nat.ltb_ge; lia).
    replace (j + length d - length d) with j in BA by lia. exact BA. }
  assert (BD : forall j, j < length d -> ax d' j = 1 \/ ax d' j = ax d j).
  { intros j Hj. specialize (BA j). rewrite Em, !ax_app, Ld' in BA. replace (j <? length d) with true in BA by (symmetry; apply Nat.ltb_lt; lia). exact BA. }
  destruct (rev_ok sl P Q G mp [] d d' BC) as (cs & ps & Z & V & W & E1 & Ep & Ec & EZ & C1 & C2 & C3 & C4 & C5 & C6 & C7 & C8). cbv zeta in *.
  cbn [app] in E1. rewrite E1. cbn [bind rv_plates rv_child rv_parent].
  replace (length mp - length Q) with 0 in * by lia. cbn [skipn] in *.
  pose proof (F2_length _ _ _ _ _ EZ) as LZ.
  (* what is assigned *)
  set (VAL := fun v : arr R => ash v = V ++ d' /\ forall q lv, Forall2 lt q Q -> length lv = length d ->
     bget v (at_index (strip sl q ++ lv)) = bget m (at_index (q ++ lv))).
  assert (V1 : exists v, np_getitem m cs = Ok v /\ VAL v).
  { unfold np_getitem. rewrite Em, C1. cbn [bind]. eexists. split; [reflexivity|]. split; [reflexivity|]. intros q lv Hq Lv.
    unfold bget at 1. cbn [ash aget]. rewrite indices_of_clip, lclip_app by lia.
    destruct (C7 q (lclip d' lv) Hq) as (src & S1 & S2 & S3). rewrite S1. apply bget_ext. intros j Hj Nj. rewrite Em, ax_app in Nj.
    rewrite !at_index_app. unfold join. rewrite lclip_length, Lv, Ld' in *. destruct (Nat.ltb_spec j (length d)).
    - rewrite at_index_lclip by lia. apply Nat.eqb_neq in Nj. now rewrite Nj.
    - now apply S3. }
  assert (V2 : ndim m = 0 -> VAL m).
  { intros N0. unfold ndim in N0. rewrite Em, app_length in N0. assert (mp = []) as Emp by (destruct mp; [reflexivity|cbn in N0; lia]).
    rewrite (Ec Emp) in *. cbn in C1. rewrite Emp in C1. cbn [app] in C1. injection C1 as C1.
    split.
    - rewrite Em, Emp. exact C1.
    - intros q lv _ _. apply bget_ext. intros j Hj. rewrite Em, app_length in Hj. lia. }
  (* the assignment *)
  assert (SET : forall v, VAL v -> exists y, np_setitem (Arr (Z ++ d) (fun _ => 0%R)) ps v = Ok y /\ ash y = Z ++ d /\
    forall p lv, Forall2 lt p P -> length lv = length d -> bget y (at_index (p ++ lv)) =
      match getitem_inv ps (Z ++ d) (lclip Z p ++ lclip d lv) with Some t => bget v (at_index t) | None => 0%R end).
  { intros v [Ev _]. unfold np_setitem. cbn [ash]. rewrite C5. cbn [bind].
    assert (SS : is_shape_subset (drop_units (ash v)) (W ++ d) = true).
    { apply is_shape_subset_spec. assert (BV : broadcasts_to (ash v) (W ++ d)).
      { rewrite Ev. split; [rewrite !app_length; lia|]. intros j. rewrite !ax_app, Ld'. destruct (Nat.ltb_spec j (length d)); [now apply BD|apply C4]. }
      destruct BV as [BV1 BV2]. split; [|intros j; rewrite ax_drop_units; apply BV2].
      etransitivity; [|exact BV1]. clear. induction (ash v) as [|[|[|n]] s IH]; cbn [drop_units]; cbn; try lia. }
    rewrite SS. eexists. split; [reflexivity|]. split; [reflexivity|]. intros p lv Hp Lv. unfold bget at 1. cbn [ash aget].
    unfold ndim. cbn [ash]. rewrite indices_of_clip, lclip_app by lia. destruct (getitem_inv _ _ _); reflexivity. }
  assert (FIN : forall v, VAL v -> exists y, np_setitem (Arr (Z ++ d) (fun _ => 0%R)) ps v = Ok y /\ broadcasts_to (ash y) (P ++ d) /\
    (forall q w, Forall2 lt q Q -> length w = length d -> bget y (at_index (getitem_src sl P q ++ w)) = bget m (at_index (q ++ w))) /\
    (forall p w, Forall2 lt p P -> length w = length d -> (forall q, Forall2 lt q Q -> getitem_src sl P q <> p) -> bget y (at_index (p ++ w)) = 0%R)).
  { intros v HV. destruct (SET v HV) as (y & Y1 & Y2 & Y3). destruct HV as [Ev HV]. exists y. split; [exact Y1|]. split; [|split].
    - rewrite Y2. split; [rewrite !app_length; lia|]. intros j. rewrite !ax_app. destruct (Nat.ltb_spec j (length d)); [now right|].
      now apply bc_ax.
    - intros q w Hq Lw. pose proof (src_in _ _ _ G q Hq) as Hp. rewrite (Y3 _ w Hp Lw). specialize (C8 _ (lclip d w) Hp).
      destruct (getitem_inv ps (Z ++ d) _) as [t|]; [|now destruct (C8 q Hq)].
      destruct C8 as (r & q' & -> & Hq' & E2 & E3 & E4). apply (src_inj _ _ _ G) in E2; [|exact Hq'|exact Hq]. subst q'.
      rewrite <- (HV q w Hq Lw). apply bget_ext. intros j Hj Nj. rewrite Ev, ax_app, Ld' in Nj. rewrite !at_index_app. unfold join.
      rewrite lclip_length, Lw. destruct (Nat.ltb_spec j (length d)) as [Jd|Jd].
      + rewrite at_index_lclip by lia. destruct (BD j Jd) as [X|X]; [contradiction|]. rewrite X in Nj. apply Nat.eqb_neq in Nj. now rewrite Nj.
      + destruct (Nat.lt_ge_cases (j - length d) (length V)) as [JV|JV]; [|exfalso; apply Nj, ax_overflow; lia].
        assert (X : at_index (lclip V r) (j - length d) = at_index (lclip V (strip sl q)) (j - length d)) by now rewrite E4.
        rewrite !at_index_lclip in X by lia. apply Nat.eqb_neq in Nj. now rewrite Nj in X.
    - intros p w Hp Lw NS. rewrite (Y3 _ w Hp Lw). specialize (C8 _ (lclip d w) Hp). destruct (getitem_inv ps (Z ++ d) _) as [t|]; [|reflexivity].
      destruct C8 as (r & q' & _ & Hq' & E2 & _). now destruct (NS q' Hq'). }
  unfold ndim at 1 3. cbn [ash].
  destruct (Nat.eqb_spec (length (Z ++ d)) 0) as [N0|N0].
  - assert (P = [] /\ d = []) as [-> ->].
    { rewrite app_length in N0. split; [destruct P; [reflexivity|cbn in *; lia]|destruct d; [reflexivity|cbn in *; lia]]. }
    destruct Z; [|discriminate]. destruct ps; [|discriminate]. cbn [app] in *. injection C5 as C5. rewrite app_nil_r in C5. subst W. cbn in C3.
    destruct V; [|cbn in C3; lia]. destruct d'; [|discriminate].
    assert (ONE : exists v, (if true && (ndim m =? 0) then Ok m else np_getitem m cs) = Ok v /\ VAL v).
    { destruct V1 as (v & X1 & X2). destruct (Nat.eqb_spec (ndim m) 0) as [M0|M0]; cbn [andb]; [exists m; split; [reflexivity|now apply V2]|exists v; auto]. }
    destruct ONE as (v & X1 & X2 & X3). cbn [andb] in X1. exists v. split; [|split; [|split]].
    + cbn [andb]. destruct (ndim m =? 0); exact X1.
    + rewrite X2. split; [cbn; lia|intros; left; now rewrite ax_nil].
    + intros q w Hq Lw. rewrite <- (X3 q w Hq Lw). apply bget_ext. intros j Hj. rewrite X2 in Hj. cbn in Hj. lia.
    + intros p w Hp Lw NS. exfalso. inversion Hp; subst. specialize (C8 [] [] ltac:(constructor)). cbn in C8.
      destruct C8 as (r & q & _ & Hq & E2 & _). now apply (NS q Hq).
  - cbn [andb]. destruct (Nat.eqb_spec (ndim m) 0) as [M0|M0].
    + apply FIN. now apply V2.
    + destruct V1 as (v & X1 & X2). rewrite X1. cbn [bind]. now apply FIN.
Qed.
