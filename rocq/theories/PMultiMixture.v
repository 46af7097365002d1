(** Property C64: mixtures over several axes. *)
From Coq Require Import List Arith Lia Bool.
From Verif Require Import Base Shapes SpecShapes ShapesLemmas PlateSumLemmas AddAxis PAddAxis
  Construct SpecConstruct PConstruct MultiMixture.
Import ListNotations.
Open Scope nat_scope.

(** ** Smallest common shapes *)
Definition ub (l : list shape) (T : shape) : Prop := forall q, In q l -> broadcasts_to q T.
Definition lub (l : list shape) (L : shape) : Prop := ub l L /\ forall T, ub l T -> broadcasts_to L T.
Lemma lub_numpy : forall l L, numpy_broadcast l L -> lub l L.
Proof.
  intros l L B. split; [intros q Hq; now apply (broadcast_upper _ _ _ B)|]. intros T H. now apply (broadcast_least _ _ _ B).
Qed.
Lemma first_part_1 : forall p x, first_part 1 (p ++ [x]) = p.
Proof. intros p x. unfold first_part. rewrite app_length. cbn [length]. rewrite Nat.add_sub. rewrite firstn_app, Nat.sub_diag, firstn_all. apply app_nil_r. Qed.
Lemma ax0_snoc : forall p x, ax (p ++ [x]) 0 = x.
Proof. intros p x. rewrite ax_app. reflexivity. Qed.
Lemma snoc_eta : forall s, 1 <= length s -> s = first_part 1 s ++ [ax s 0].
Proof.
  intros s H. destruct (exists_last (l := s)) as (a & x & ->); [intros ->; cbn in H; lia|]. now rewrite first_part_1, ax0_snoc.
Qed.
Lemma pop_0 : forall s, 1 <= length s -> py_pop 0 s = Ok (first_part 1 s).
Proof.
  intros s H. unfold py_pop, first_part. destruct (Nat.ltb_spec 0 (length s)); [|lia]. rewrite Nat.sub_0_r, Nat.sub_0_r, skipn_all. now rewrite app_nil_r.
Qed.
Lemma snoc_broadcasts : forall p x T y, broadcasts_to (p ++ [x]) (T ++ [y]) <-> broadcasts_to p T /\ (x = 1 \/ x = y).
Proof.
  intros p x T y. rewrite split_broadcast. cbn [length]. rewrite first_part_1, ends_fit1, ax0_snoc. reflexivity.
Qed.

(** A last axis that only the first shape has. *)
Lemma lub_snoc : forall F K G L, lub ((F ++ [K]) :: map (fun p => p ++ [1]) G) L ->
  1 <= length L /\ ax L 0 = K /\ lub (F :: G) (first_part 1 L).
Proof.
  intros F K G L [U M].
  assert (HL : 1 <= length L).
  { destruct (U (F ++ [K]) ltac:(now left)) as [H _]. rewrite app_length in H. cbn in H. lia. }
  rewrite (snoc_eta L HL) in U, M |- *. set (R := first_part 1 L) in *. set (k := ax L 0) in *. clearbody R k.
  assert (UR : ub (F :: G) R).
  { intros q [<-|Hq].
    - now apply (snoc_broadcasts F K R k), (U (F ++ [K])); left.
    - apply (snoc_broadcasts q 1 R k). apply U. right. apply in_map_iff. now exists q. }
  assert (Up : forall T, ub (F :: G) T -> ub ((F ++ [K]) :: map (fun p => p ++ [1]) G) (T ++ [K])).
  { intros T H q [<-|Hq]; [apply snoc_broadcasts; split; [apply H; now left|now right]|].
    apply in_map_iff in Hq as (g & <- & Hg). apply snoc_broadcasts. split; [apply H; now right|now left]. }
  rewrite app_length, ax0_snoc, first_part_1. cbn [length]. split; [lia|]. split.
  - pose proof (M _ (Up R UR)) as H. apply snoc_broadcasts in H as [_ H].
    assert (HF : broadcasts_to (F ++ [K]) (R ++ [k])) by (apply U; now left). apply snoc_broadcasts in HF as [_ HF]. lia.
  - split; [exact UR|]. intros T H. now apply (snoc_broadcasts R k T K), (M _ (Up T H)).
Qed.

(** ** One level *)
Definition vector_of (z : par) (K : nat) : Prop := is_vector z K.
Lemma pop_all : forall L l, 1 <= length L -> ub l L -> exists popped, mapM (pop_plate 0) l = Ok popped /\ ub popped (first_part 1 L).
Proof.
  intros L l HL. induction l as [|q l IH]; intros H; [exists []; split; [reflexivity|intros t []]|].
  destruct (pop_below 0 L q (first_part 1 L) HL (pop_0 L HL) (H q (or_introl eq_refl))) as (t & Ht & Bt).
  destruct IH as (ts & Hts & Bts); [intros q' Hq; apply H; now right|].
  exists (t :: ts). cbn [mapM]. rewrite Ht. cbn [bind]. rewrite Hts. cbn [bind]. split; [reflexivity|]. intros t' [<-|H']; auto.
Qed.
Definition result (dims : list shape) (l : list shape) (r : res con) : Prop :=
  (exists c, r = Ok c /\ lub l (c_plates c) /\ ub (c_fronts c) (c_plates c) /\ c_dims c = dims) \/
  (r = Err ValueError /\ forall T, ~ ub l T).
Lemma ub_cons : forall q l T, ub (q :: l) T <-> broadcasts_to q T /\ ub l T.
Proof.
  intros q l T. unfold ub. split; [intros H; split; [apply H; now left|intros; apply H; now right]|]. intros [H1 H2] x [<-|Hx]; auto.
Qed.
Lemma result_step : forall dims F K G z r, result dims ((F ++ [K]) :: map (fun p => p ++ [1]) G) r -> is_vector z K ->
  result dims (F :: p_plates z :: G) (inner <- r ;; mixture_con z 0 None inner).
Proof.
  intros dims F K G z r [(c & -> & L & U & Ed)|[-> N]] [ds Hz]; cbn [bind].
  - destruct (lub_snoc _ _ _ _ L) as (HL & HK & R & M). unfold mixture_con.
    destruct (Nat.ltb_spec (length (c_plates c)) (0 + 1)) as [C0|_]; [lia|]. rewrite (pop_0 _ HL). cbn [bind]. unfold dim00. rewrite Hz. cbn [bind].
    rewrite HK, Nat.eqb_refl. cbn [negb]. destruct (pop_all _ _ HL U) as (popped & Hp & Up). rewrite total_plates_none.
    destruct (broadcasted_shape [first_part 1 (c_plates c); p_plates z]) as [m|e] eqn:E; cbn [bind].
    + rewrite Hp. cbn [bind]. left. eexists. split; [reflexivity|]. cbn [c_plates c_fronts c_dims].
      apply broadcasted_shape_ok, lub_numpy in E as [E1 E2].
      assert (E0 : broadcasts_to (first_part 1 (c_plates c)) m) by (apply E1; now left).
      assert (Ez : broadcasts_to (p_plates z) m) by (apply E1; right; now left). split; [split|split; [|exact Ed]].
      * apply ub_cons in R as [R1 R2]. apply ub_cons. split; [now apply (broadcasts_to_trans _ _ _ R1)|]. apply ub_cons. split; [exact Ez|].
        intros q Hq. now apply (broadcasts_to_trans _ _ _ (R2 q Hq)).
      * intros T H. apply ub_cons in H as [H1 H]. apply ub_cons in H as [H2 H]. apply E2. intros q [<-|[<-|[]]]; [|exact H2].
        apply M. apply ub_cons. now split.
      * apply ub_cons. split; [exact Ez|]. intros q Hq. now apply (broadcasts_to_trans _ _ _ (Up q Hq)).
    + right. apply broadcasted_shape_err in E as E'. destruct E' as [-> _]. split; [reflexivity|]. intros T H.
      apply ub_cons in H as [H1 H]. apply ub_cons in H as [H2 H].
      destruct (broadcast_exists_of_upper [first_part 1 (c_plates c); p_plates z] T) as [S HS]; [|congruence].
      intros q [<-|[<-|[]]]; [|exact H2]. apply M. apply ub_cons. now split.
  - right. split; [reflexivity|]. intros T H. apply (N (T ++ [K])).
    apply ub_cons in H as [H1 H]. apply ub_cons in H as [H2 H]. apply ub_cons. split; [apply snoc_broadcasts; split; [exact H1|now right]|].
    intros q Hq. apply in_map_iff in Hq as (g & <- & Hg). apply snoc_broadcasts. split; [now apply H|now left].
Qed.

(** ** All levels *)
Fixpoint nested (i : nat) (zs : list par) (base : res con) : list arg :=
  match zs with
  | [] => [ABase base]
  | [z] => [ANode (trailing i z); ABase base]
  | z :: zs => ANode (trailing i z) :: AMixture :: nested (S i) zs base
  end.
Lemma multi_args : forall thetas base, thetas <> [] ->
  let l := map (fun p => ANode (trailing (fst p) (snd p))) (enumerate_from 0 thetas) in
  firstn 1 l ++ zipper_merge (repeat AMixture (length thetas - 1)) (skipn 1 l) ++ [ABase base] = nested 0 thetas base.
Proof.
  intros [|z zs] base H; [contradiction|]. cbn [enumerate_from map firstn skipn length fst snd]. rewrite Nat.sub_succ, Nat.sub_0_r.
  assert (G : forall zs i z, [ANode (trailing i z)] ++
     zipper_merge (repeat AMixture (length zs)) (map (fun p => ANode (trailing (fst p) (snd p))) (enumerate_from (S i) zs)) ++ [ABase base] =
     nested i (z :: zs) base); [|apply (G zs 0 z)].
  induction zs0 as [|y ys IH]; intros i x; [reflexivity|].
  cbn [length repeat enumerate_from map fst snd zipper_merge combine flat_map app]. change (nested i (x :: y :: ys) base) with (ANode (trailing i x) :: AMixture :: nested (S i) (y :: ys) base).
  f_equal. f_equal. rewrite <- IH. reflexivity.
Qed.
Definition shifted (i : nat) (zs : list par) : list shape := map (fun z => p_plates z ++ repeat 1 i) zs.
Lemma shifted_S : forall i zs, shifted (S i) zs = map (fun p => p ++ [1]) (shifted i zs).
Proof. intros i zs. unfold shifted. rewrite map_map. apply map_ext. intros z. rewrite <- app_assoc. f_equal. cbn [repeat]. apply repeat_cons. Qed.
Section Levels.
Variable base : con.
Hypothesis base_ok : lub (c_fronts base) (c_plates base).
Lemma levels : forall zs Ks, Forall2 is_vector zs Ks -> zs <> [] -> forall i F, c_plates base = F ++ Ks ->
  result (c_dims base) (F :: shifted i zs) (mixture_args (nested i zs (Ok base))).
Proof.
  intros zs Ks H. induction H as [|z K zs Ks Hz H IH]; [contradiction|]. intros _ i F E.
  assert (Hz' : is_vector (trailing i z) K) by exact Hz.
  destruct zs as [|y ys].
  - inversion H; subst Ks. cbn [nested mixture_args bind]. apply (result_step (c_dims base) F K [] (trailing i z) (Ok base)); [|exact Hz'].
    left. exists base. split; [reflexivity|]. rewrite E. split; [|split; [|reflexivity]].
    + split; [intros q [<-|[]]; apply broadcasts_to_refl|]. intros T HT. apply HT. now left.
    + rewrite <- E. apply base_ok.
  - change (mixture_args (nested i (z :: y :: ys) (Ok base))) with (inner <- mixture_args (nested (S i) (y :: ys) (Ok base)) ;; mixture_con (trailing i z) 0 None inner).
    apply (result_step (c_dims base) F K (shifted i (y :: ys)) (trailing i z)); [|exact Hz']. rewrite <- shifted_S. apply IH; [discriminate|].
    rewrite E, <- app_assoc. reflexivity.
Qed.
(** The outermost level, with the given plates. *)
Lemma outer_step : forall K F G z r given, result (c_dims base) ((F ++ [K]) :: map (fun p => p ++ [1]) G) r -> is_vector z K ->
  correct [ValueError] given (map (fun p => (p, [])) (F :: p_plates z :: G)) (c_dims base)
    (inner <- r ;; c <- mixture_con z 0 given inner ;; new_node given c).
Proof.
  intros K F G z r g [(c & -> & L & U & Ed)|[-> N]] [ds Hz]; cbn [bind].
  - destruct (lub_snoc _ _ _ _ L) as (HL & HK & R & M). unfold mixture_con.
    destruct (Nat.ltb_spec (length (c_plates c)) (0 + 1)) as [C0|_]; [lia|]. rewrite (pop_0 _ HL). cbn [bind]. unfold dim00. rewrite Hz. cbn [bind].
    rewrite HK, Nat.eqb_refl. cbn [negb]. destruct (pop_all _ _ HL U) as (popped & Hp & Up). set (rest := first_part 1 (c_plates c)) in *.
    assert (Eq : (c0 <- (plates <- total_plates g [rest; p_plates z] ;; popped <- mapM (pop_plate 0) (c_fronts c) ;; Ok (Con plates (p_plates z :: popped) (c_dims c))) ;; new_node g c0) =
      build g [rest; p_plates z] (p_plates z :: popped) (c_dims base)).
    { rewrite Hp. unfold build, new_node. rewrite Ed. destruct (total_plates g [rest; p_plates z]); reflexivity. }
    rewrite Eq. apply (correct_iff _ _ (map (fun p => (p, [])) [rest; p_plates z])).
    + intros P.
      assert (W : forall l, fits (map (fun p => (p, [])) l) P <-> ub l P).
      { intros l. unfold fits, ub. split.
        - intros H0 q Hq. rewrite <- (app_nil_r P). apply H0. apply in_map_iff. now exists q.
        - intros H0 p e He. apply in_map_iff in He as (q & [= <- <-] & Hq). rewrite app_nil_r. now apply H0. }
      rewrite !W, !ub_cons. apply ub_cons in R as [R1 R2]. split.
      * intros [H1 [H2 _]]. split; [now apply (broadcasts_to_trans _ _ _ R1)|]. split; [exact H2|]. intros q Hq. now apply (broadcasts_to_trans _ _ _ (R2 q Hq)).
      * intros [H1 [H2 H3]]. split; [apply M; apply ub_cons; now split|]. split; [exact H2|intros q []].
    + assert (Fr : fronts (map (fun p => (p, [])) [rest; p_plates z]) = [rest; p_plates z]) by (unfold fronts; cbn [map fst snd length]; now rewrite !first_part_0).
      pose proof (correct_build g (map (fun p => (p, [])) [rest; p_plates z]) (p_plates z :: popped) (c_dims base)) as C.
      rewrite Fr in C. apply C.
      * intros p e [[= <- <-]|[[= <- <-]|[]]]; apply ends_fit_nil.
      * intros q P Hq HH. destruct Hq as [<-|Hq]; [apply HH; right; now left|].
        apply (broadcasts_to_trans _ rest); [now apply Up|]. apply HH. now left.
  - apply correct_err; [|now left]. intros P F0. apply (N (P ++ [K])).
    assert (H : forall q, In q (F :: p_plates z :: G) -> broadcasts_to q P).
    { intros q Hq. rewrite <- (app_nil_r P). apply F0. apply in_map_iff. now exists q. }
    apply ub_cons. split; [apply snoc_broadcasts; split; [apply H; now left|now right]|].
    intros q Hq. apply in_map_iff in Hq as (g0 & <- & Hg). apply snoc_broadcasts. split; [apply H; right; now right|now left].
Qed.
End Levels.

(** A mixture over the last axes of the mixed distribution: theta i chooses along the axis
    of length Ks i.  The node has plates to which all thetas broadcast, and to which the
    parents of the mixed distribution broadcast when all those axes are added. *)
Theorem C64_multi_mixture : forall thetas Ks base F given, thetas <> [] -> Forall2 is_vector thetas Ks ->
  numpy_broadcast (c_fronts base) (c_plates base) -> c_plates base = F ++ Ks ->
  correct [ValueError] given (map (fun z => (p_plates z, [])) thetas ++ map (fun q => (q, Ks)) (c_fronts base)) (c_dims base)
    (multi_mixture thetas (Ok base) given).
Proof.
  intros thetas Ks base F g Hne H B E. pose proof (lub_numpy _ _ B) as L. unfold multi_mixture. rewrite multi_args by exact Hne.
  inversion H as [|z K zs Ks' Hz H' E1 E2]; subst; [contradiction|].
  assert (Hz' : is_vector (trailing 0 z) K) by exact Hz.
  assert (P0 : p_plates (trailing 0 z) = p_plates z) by (cbn; apply app_nil_r).
  apply (correct_iff _ _ (map (fun p => (p, [])) (F :: p_plates (trailing 0 z) :: shifted 0 zs))).
  { intros P. rewrite P0. unfold fits. split.
    - intros W p e Hp. apply in_app_or in Hp as [Hp|Hp]; apply in_map_iff in Hp as (q & [= <- <-] & Hq).
      + apply W. apply in_map_iff. exists (p_plates q). split; [reflexivity|]. right. destruct Hq as [->|Hq]; [now left|]. right.
        apply in_map_iff. exists q. split; [apply app_nil_r|exact Hq].
      + apply (broadcasts_to_trans _ (c_plates base)); [now apply L|]. rewrite E. apply split_broadcast. split.
        * assert (FF : first_part (length (K :: Ks')) (F ++ K :: Ks') = F).
          { unfold first_part. rewrite app_length, Nat.add_sub, firstn_app, Nat.sub_diag, firstn_all. apply app_nil_r. }
          rewrite FF. rewrite <- (app_nil_r P). apply W. now left.
        * intros k Hk. right. rewrite ax_app. apply Nat.ltb_lt in Hk. now rewrite Hk.
    - intros W p e Hp. apply in_map_iff in Hp as (q & [= <- <-] & Hq). destruct Hq as [<-|[<-|Hq]].
      + rewrite app_nil_r.
        assert (HB : broadcasts_to (F ++ K :: Ks') (P ++ K :: Ks')).
        { rewrite <- E. apply L. intros q Hq. apply W. apply in_or_app. right. apply in_map_iff. now exists q. }
        apply split_broadcast in HB as [HB _].
        assert (FF : first_part (length (K :: Ks')) (F ++ K :: Ks') = F).
        { unfold first_part. rewrite app_length, Nat.add_sub, firstn_app, Nat.sub_diag, firstn_all. apply app_nil_r. }
        now rewrite FF in HB.
      + apply W. now left.
      + apply in_map_iff in Hq as (y & <- & Hy). cbn [repeat]. rewrite app_nil_r. apply W. apply in_or_app. left. right. apply in_map_iff. now exists y. }
  destruct zs as [|y ys].
  - inversion H'; subst Ks'. cbn [nested mixture_call]. apply (outer_step base K F [] (trailing 0 z) (Ok base)); [|exact Hz'].
    left. exists base. split; [reflexivity|]. rewrite E. split; [|split; [|reflexivity]].
    + split; [intros q [<-|[]]; apply broadcasts_to_refl|]. intros T HT. apply HT. now left.
    + rewrite <- E. apply L.
  - change (mixture_call g (nested 0 (z :: y :: ys) (Ok base))) with
      (inner <- mixture_args (nested 1 (y :: ys) (Ok base)) ;; c <- mixture_con (trailing 0 z) 0 g inner ;; new_node g c).
    apply (outer_step base K F (shifted 0 (y :: ys)) (trailing 0 z)); [|exact Hz']. rewrite <- shifted_S. apply (levels base L _ Ks'); [exact H'|discriminate|].
    rewrite E, <- app_assoc. reflexivity.
Qed.

(** ** Numbers of categories that do not agree *)
Lemma step_any : forall dims F K' G z K r, result dims ((F ++ [K']) :: map (fun p => p ++ [1]) G) r -> is_vector z K ->
  (K = K' /\ result dims (F :: p_plates z :: G) (inner <- r ;; mixture_con z 0 None inner)) \/
  (forall given, (inner <- r ;; mixture_con z 0 given inner) = Err ValueError).
Proof.
  intros dims F K' G z K r H Hz. destruct (Nat.eq_dec K K') as [<-|N]; [left; split; [reflexivity|now apply (result_step dims F K)]|].
  right. intros g. destruct H as [(c & -> & L & _)|[-> _]]; [|reflexivity]. cbn [bind]. destruct (lub_snoc _ _ _ _ L) as (HL & HK & _).
  unfold mixture_con. destruct (Nat.ltb_spec (length (c_plates c)) (0 + 1)) as [C0|_]; [reflexivity|]. rewrite (pop_0 _ HL). cbn [bind].
  destruct Hz as [ds Hz]. unfold dim00. rewrite Hz. cbn [bind]. rewrite HK. apply Nat.eqb_neq in N. now rewrite N.
Qed.
Lemma result_unit : forall dims G r, G <> [] -> result dims ([] :: map (fun p => p ++ [1]) G) r ->
  result dims (([] ++ [1]) :: map (fun p => p ++ [1]) G) r.
Proof.
  intros dims G r HG H.
  assert (W : forall T, ub ([] :: map (fun p => p ++ [1]) G) T <-> ub (([] ++ [1]) :: map (fun p => p ++ [1]) G) T).
  { intros T. rewrite !ub_cons. cbn [app]. split; (intros [H1 H2]; split; [|exact H2]).
    - destruct G as [|q G]; [contradiction|]. destruct (H2 (q ++ [1]) ltac:(now left)) as [HL _]. rewrite app_length in HL. cbn in HL.
      split; [cbn; lia|]. intros [|k]; [now left|]. left. apply ax_overflow. cbn. lia.
    - apply broadcasts_to_nil. }
  destruct H as [(c & E & [L1 L2] & U & Ed)|[E N]].
  - left. exists c. split; [exact E|]. split; [|now split]. split; [now apply W|]. intros T HT. now apply L2, W.
  - right. split; [exact E|]. intros T HT. apply (N T). now apply W.
Qed.
Lemma first_part_split : forall n B, n < length B -> first_part n B = first_part (S n) B ++ [ax B n].
Proof.
  intros n B H. rewrite (snoc_eta (first_part n B)) by (rewrite first_part_length; lia). f_equal.
  - unfold first_part at 1. rewrite first_part_length. unfold first_part. rewrite firstn_firstn. f_equal. lia.
  - f_equal. now rewrite ax_first_part.
Qed.
Lemma first_part_short : forall n B, length B <= n -> first_part n B = [].
Proof. intros n B H. unfold first_part. now replace (length B - n) with 0 by lia. Qed.
Lemma forall2_length : forall A B (R : A -> B -> Prop) l m, Forall2 R l m -> length l = length m.
Proof. intros A B R l m H. induction H; cbn; congruence. Qed.
Section Mismatch.
Variable base : con.
Hypothesis base_ok : lub (c_fronts base) (c_plates base).
Let B := c_plates base.
Lemma inner_result : forall n G r, 1 <= n -> G <> [] ->
  result (c_dims base) (first_part n B :: map (fun p => p ++ [1]) G) r ->
  result (c_dims base) ((first_part (S n) B ++ [ax B n]) :: map (fun p => p ++ [1]) G) r.
Proof.
  intros n G r Hn HG H. destruct (Nat.le_gt_cases (length B) n) as [L|L].
  - rewrite (first_part_short n B L) in H. rewrite (first_part_short (S n) B) by lia. rewrite (ax_overflow B n L). now apply result_unit.
  - now rewrite (first_part_split n B L) in H.
Qed.
Lemma levels_any : forall zs Ks, Forall2 is_vector zs Ks -> zs <> [] -> forall i,
  ((forall k, k < length zs -> ax B k = ax Ks k) /\
   result (c_dims base) (first_part (length zs) B :: shifted i zs) (mixture_args (nested i zs (Ok base)))) \/
  mixture_args (nested i zs (Ok base)) = Err ValueError.
Proof.
  intros zs Ks H. induction H as [|z K zs Ks Hz H IH]; [contradiction|]. intros _ i.
  assert (Hz' : is_vector (trailing i z) K) by exact Hz. destruct zs as [|y ys].
  - inversion H; subst Ks. cbn [nested mixture_args]. destruct (Nat.le_gt_cases 1 (length B)) as [L|L].
    + assert (R : result (c_dims base) ((first_part 1 B ++ [ax B 0]) :: map (fun p => p ++ [1]) []) (Ok base)).
      { rewrite <- (snoc_eta B L). left. exists base. split; [reflexivity|]. split; [|split; [|reflexivity]].
        - split; [intros q [<-|[]]; apply broadcasts_to_refl|]. intros T HT. apply HT. now left.
        - apply base_ok. }
      destruct (step_any _ _ _ _ _ _ _ R Hz') as [[E R']|R']; [left|right; apply R']. split; [|exact R'].
      intros [|k] Hk; [now rewrite <- E|cbn in Hk; lia].
    + right. cbn [bind]. unfold mixture_con. fold B. destruct (Nat.ltb_spec (length B) (0 + 1)); [reflexivity|lia].
  - change (mixture_args (nested i (z :: y :: ys) (Ok base))) with (inner <- mixture_args (nested (S i) (y :: ys) (Ok base)) ;; mixture_con (trailing i z) 0 None inner).
    destruct (IH ltac:(discriminate) (S i)) as [[A R]|R]; [|right; rewrite R; reflexivity]. rewrite shifted_S in R.
    apply inner_result in R; [|cbn; lia|discriminate]. set (n := length (y :: ys)) in *.
    destruct (step_any _ _ _ _ _ _ _ R Hz') as [[E R']|R']; [left|right; apply R']. split; [|exact R'].
    intros k Hk. change (K :: Ks) with ([K] ++ Ks). rewrite ax_app. pose proof (forall2_length _ _ _ _ _ H) as HL. change (length (y :: ys)) with n in HL. rewrite <- HL.
    destruct (Nat.ltb_spec k n) as [C|C]; [now apply A|]. cbn [length] in Hk. assert (k = n) by (unfold n in *; cbn [length] in *; lia). subst k.
    rewrite Nat.sub_diag. cbn. now rewrite E.
Qed.
Lemma call_err : forall z l r given, mixture_args l = r ->
  (forall g, (inner <- r ;; mixture_con z 0 g inner) = Err ValueError) -> mixture_call given (ANode z :: AMixture :: l) = Err ValueError.
Proof.
  intros z l r g <- H. cbn [mixture_call]. specialize (H g). destruct (mixture_args l) as [c|e]; cbn [bind] in *; [now rewrite H|now injection H as ->].
Qed.
End Mismatch.
(** [ax s k] is 1 when there is no such axis. *)
Theorem C64_multi_mismatch : forall thetas Ks base given k, Forall2 is_vector thetas Ks ->
  numpy_broadcast (c_fronts base) (c_plates base) -> k < length thetas -> ax (c_plates base) k <> ax Ks k ->
  multi_mixture thetas (Ok base) given = Err ValueError.
Proof.
  intros thetas Ks base g k H B Hk N. pose proof (lub_numpy _ _ B) as L. unfold multi_mixture. rewrite multi_args by (intros ->; cbn in Hk; lia).
  inversion H as [|z K zs Ks' Hz H' E1 E2]; subst; [cbn in Hk; lia|].
  assert (Hz' : is_vector (trailing 0 z) K) by exact Hz. destruct zs as [|y ys].
  - inversion H'; subst Ks'. assert (k = 0) by (cbn in Hk; lia). subst k. cbn [nested mixture_call bind]. unfold mixture_con.
    destruct (Nat.ltb_spec (length (c_plates base)) (0 + 1)) as [C|C]; [reflexivity|]. rewrite pop_0 by lia. cbn [bind].
    destruct Hz as [ds Hz]. unfold dim00. cbn [trailing p_dims]. rewrite Hz. cbn [bind].
    destruct (Nat.eqb_spec K (ax (c_plates base) 0)) as [E|E]; [|reflexivity]. cbn in N. now rewrite E in N.
  - change (nested 0 (z :: y :: ys) (Ok base)) with (ANode (trailing 0 z) :: AMixture :: nested 1 (y :: ys) (Ok base)).
    destruct (levels_any base L _ _ H' ltac:(discriminate) 1) as [[A R]|R].
    + rewrite shifted_S in R. apply inner_result in R; [|cbn; lia|discriminate].
      destruct (step_any _ _ _ _ _ _ _ R Hz') as [[E _]|R']; [exfalso|now apply (call_err _ _ _ g eq_refl)].
      apply N. change (K :: Ks') with ([K] ++ Ks'). rewrite ax_app. pose proof (forall2_length _ _ _ _ _ H') as HL. rewrite <- HL.
      destruct (Nat.ltb_spec k (length (y :: ys))) as [C|C]; [now apply A|]. assert (k = length (y :: ys)) by (cbn [length] in *; lia). subst k.
      rewrite Nat.sub_diag. cbn [ax]. symmetry. exact E.
    + apply (call_err _ _ _ g R). reflexivity.
Qed.
(** The mixture over one axis is the one of Construct.v. *)
Theorem C64_single : forall z parents dims B given, numpy_broadcast (fronts parents) B ->
  multi_mixture [z] (Ok (Con B (fronts parents) dims)) given =
  mixture z (map (fun q : shape * shape => (fst q, length (snd q))) parents) dims 0 given.
Proof.
  intros z parents dims B g HB. unfold multi_mixture. rewrite multi_args by discriminate. cbn [nested mixture_call bind].
  unfold mixture. rewrite plain_fronts, (mixed_ok parents dims B HB). cbn [bind fst]. unfold mixture_con. cbn [c_plates c_fronts c_dims].
  destruct (Nat.ltb_spec (length B) (0 + 1)) as [C|C]; [reflexivity|]. destruct (py_pop 0 B) as [rest|e]; [|reflexivity]. cbn [bind].
  unfold trailing, dim00. cbn [p_dims p_plates repeat]. rewrite app_nil_r. destruct (p_dims z) as [|[|Kz d] ds]; try reflexivity. cbn [bind].
  destruct (negb _); [reflexivity|].
  destruct (pop_all B (fronts parents)) as (popped & -> & _); [lia|intros q Hq; now apply (broadcast_upper _ _ _ HB)|].
  unfold build, new_node. destruct (total_plates g [rest; p_plates z]); reflexivity.
Qed.

(** ** Examples *)
(** Two groups of 10 and 4 plates choose among 3 and 5 clusters: mu has plates (3, 5). *)
Definition ex_base := Con [3; 5] [[3; 5]; []] [[2]; [2; 2]].
Definition ex_thetas := [Par [10; 1] [[3]]; Par [4] [[5]]].
Example ex_multi : multi_mixture ex_thetas (Ok ex_base) None = Ok ([10; 4], [[2]; [2; 2]]) /\
  multi_mixture ex_thetas (Ok ex_base) (Some [7; 10; 4]) = Ok ([7; 10; 4], [[2]; [2; 2]]) /\
  multi_mixture ex_thetas (Ok ex_base) (Some [10; 1]) = Err ValueError /\
  multi_mixture (rev ex_thetas) (Ok ex_base) None = Err ValueError /\
  Forall2 is_vector ex_thetas [3; 5] /\ numpy_broadcast (c_fronts ex_base) (c_plates ex_base).
Proof.
  do 4 (split; [reflexivity|]). split; [repeat constructor; now exists []|]. apply broadcasted_shape_ok. reflexivity.
Qed.
(** Three thetas, and plates of the base before the mixed axes. *)
Example ex_three : multi_mixture [Par [] [[2]]; Par [6] [[3]]; Par [1] [[4]]] (Ok (Con [9; 1; 2; 3; 4] [[9; 1; 2; 3; 4]] [[]])) None
  = Ok ([9; 6], [[]]).
Proof. reflexivity. Qed.
Print Assumptions C64_multi_mixture.
Print Assumptions C64_multi_mismatch.
Print Assumptions C64_single.
