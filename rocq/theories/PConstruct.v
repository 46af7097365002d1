(** Property C63: the plates and the shape of a new node. *)
From Coq Require Import List Arith Lia Bool.
From Verif Require Import Base Shapes SpecShapes ShapesLemmas PlateSumLemmas GaussToGauss AddAxis PAddAxis
  Construct SpecConstruct.
Import ListNotations.
Open Scope nat_scope.

Lemma dims_eqb_refl : forall a, dims_eqb a a = true.
Proof. intros a. unfold dims_eqb. now destruct (list_eq_dec _ a a). Qed.
Lemma dims_eqb_neq : forall a b, a <> b -> dims_eqb a b = false.
Proof. intros a b H. unfold dims_eqb. now destruct (list_eq_dec _ a b). Qed.

Lemma ax_first_part : forall n p k, ax (first_part n p) k = ax p (k + n).
Proof.
  intros n p k. unfold first_part. destruct (Nat.le_gt_cases n (length p)) as [H|H].
  - rewrite <- (firstn_skipn (length p - n) p) at 3. rewrite ax_app, skipn_length.
    destruct (Nat.ltb_spec (k + n) (length p - (length p - n))); [lia|]. f_equal. lia.
  - replace (length p - n) with 0 by lia. cbn [firstn]. rewrite ax_nil. symmetry. apply ax_overflow. lia.
Qed.
Lemma first_part_0 : forall p, first_part 0 p = p.
Proof. intros p. unfold first_part. rewrite Nat.sub_0_r. apply firstn_all. Qed.
Lemma first_part_length : forall n p, length (first_part n p) = length p - n.
Proof. intros n p. unfold first_part. rewrite firstn_length. lia. Qed.
Lemma last_part_all : forall s, last_part (length s) s = s.
Proof. intros s. unfold last_part. now rewrite Nat.sub_diag. Qed.
Lemma last_part_length : forall n s, n <= length s -> length (last_part n s) = n.
Proof. intros n s H. unfold last_part. rewrite skipn_length. lia. Qed.
Lemma ax_last_part : forall n s k, n <= length s -> k < n -> ax (last_part n s) k = ax s k.
Proof.
  intros n s k H Hk. rewrite <- (firstn_skipn (length s - n) s) at 2. rewrite ax_app.
  rewrite skipn_length. destruct (Nat.ltb_spec k (length s - (length s - n))); [reflexivity|lia].
Qed.

Lemma split_broadcast : forall p P e, broadcasts_to p (P ++ e) <-> broadcasts_to (first_part (length e) p) P /\ ends_fit p e.
Proof.
  intros p P e. split.
  - intros [L H]. split; [split|].
    + rewrite first_part_length. rewrite app_length in L. lia.
    + intros k. rewrite ax_first_part. specialize (H (k + length e)). rewrite ax_app in H.
      destruct (Nat.ltb_spec (k + length e) (length e)); [lia|]. now rewrite Nat.add_sub in H.
    + intros k Hk. specialize (H k). rewrite ax_app in H. apply Nat.ltb_lt in Hk. now rewrite Hk in H.
  - intros [[L H] T]. rewrite first_part_length in L. split; [rewrite app_length; lia|]. intros k. rewrite ax_app.
    destruct (Nat.ltb_spec k (length e)) as [C|C]; [now apply T|]. specialize (H (k - length e)). rewrite ax_first_part in H.
    replace (k - length e + length e) with k in H by lia. exact H.
Qed.

Definition fronts (l : list (shape * shape)) : list shape := map (fun q => first_part (length (snd q)) (fst q)) l.
Lemma fits_fronts : forall l, (forall p e, In (p, e) l -> ends_fit p e) ->
  forall P, fits l P <-> forall q, In q (fronts l) -> broadcasts_to q P.
Proof.
  intros l T P. unfold fits, fronts. split.
  - intros H q Hq. apply in_map_iff in Hq as ([p e] & <- & Hp). cbn [fst snd]. apply split_broadcast. now apply H.
  - intros H p e Hp. apply split_broadcast. split; [|now apply T]. apply H. apply in_map_iff. exists (p, e). now split.
Qed.
Lemma fits_no_tail : forall l p e P, In (p, e) l -> ~ ends_fit p e -> ~ fits l P.
Proof. intros l p e P Hp H F. apply H. now apply (split_broadcast p P e), F. Qed.

(** If some plates fit there are smallest ones. *)
Theorem C63_least_exists : forall l T, fits l T -> exists P, least l P.
Proof.
  intros l T F.
  assert (E : forall p e, In (p, e) l -> ends_fit p e) by (intros p e Hp; now apply (split_broadcast p T e), F).
  pose proof (fits_fronts l E) as W. destruct (broadcast_exists_of_upper (fronts l) T (proj1 (W T) F)) as [S HS].
  apply broadcasted_shape_ok in HS. exists S. split.
  - apply W. intros q Hq. now apply (broadcast_upper (fronts l)).
  - intros T' F'. apply (broadcast_least (fronts l)); [exact HS|]. now apply W.
Qed.
Theorem C63_least_unique : forall l P Q, least l P -> least l Q -> P = Q.
Proof. intros l P Q [F1 L1] [F2 L2]. apply broadcasts_to_antisym; auto. Qed.

Lemma correct_iff : forall E g l l' d r, (forall P, fits l P <-> fits l' P) -> correct E g l d r -> correct E g l' d r.
Proof.
  intros E g l l' d r H C. unfold correct in *. destruct g as [P|]; destruct C as [C1 C2]; split.
  - intros F. now apply C1, H.
  - intros F. apply C2. now rewrite H.
  - intros P [F L]. apply C1. split; [now apply H|]. intros T HT. now apply L, H.
  - intros F. apply C2. intros P. rewrite H. apply F.
Qed.
Lemma correct_weaken : forall E E' g l d r, (forall e, In e E -> In e E') -> correct E g l d r -> correct E' g l d r.
Proof.
  intros E E' g l d r H C. unfold correct in *. destruct g as [P|]; destruct C as [C1 C2]; (split; [exact C1|]);
    intros F; destruct (C2 F) as (e & He & Hr); exists e; auto.
Qed.
Lemma correct_err : forall (E : list err) g l d e, (forall P, ~ fits l P) -> In e E -> correct E g l d (Err e).
Proof.
  intros E g l d e H He. unfold correct. destruct g as [P|]; (split; [|now exists e]).
  - intros F. now apply H in F.
  - intros P [F _]. now apply H in F.
Qed.
Lemma correct_build : forall g l second d, (forall p e, In (p, e) l -> ends_fit p e) ->
  (forall q P, In q second -> (forall q', In q' (fronts l) -> broadcasts_to q' P) -> broadcasts_to q P) -> correct [ValueError] g l d (build g (fronts l) second d).
Proof.
  intros g l second d T S. pose proof (fits_fronts l T) as W. unfold correct, build. destruct g as [P|].
  - destruct (total_plates_some P (fronts l) _ eq_refl) as [[-> H]|[-> (p & Hp & H)]]; cbn [bind]; split.
    + intros F. destruct (total_plates_some P second _ eq_refl) as [[-> _]|[_ (p & Hp & Hn)]]; [reflexivity|].
      exfalso. apply Hn. now apply S.
    + intros F. exfalso. apply F, W, H.
    + intros F. exfalso. apply H. now apply W.
    + intros _. exists ValueError. split; [now left|reflexivity].
  - rewrite !total_plates_none. split.
    + intros P [F L]. destruct (broadcast_exists_of_upper (fronts l) P (proj1 (W P) F)) as [Q HQ]. rewrite HQ. cbn [bind].
      destruct (broadcast_exists_of_upper second P) as [Q' ->]; [intros q Hq; apply (S q P Hq); now apply (W P)|]. cbn [bind].
      apply broadcasted_shape_ok in HQ. f_equal. f_equal. apply broadcasts_to_antisym.
      * apply (broadcast_least (fronts l)); [exact HQ|]. now apply W.
      * apply L, W. intros q Hq. now apply (broadcast_upper (fronts l)).
    + intros F. destruct (broadcasted_shape (fronts l)) as [Q|e] eqn:E.
      * exfalso. apply (F Q), W. apply broadcasted_shape_ok in E. intros q Hq. now apply (broadcast_upper (fronts l)).
      * apply broadcasted_shape_err in E as [-> _]. exists ValueError. split; [now left|reflexivity].
Qed.
Lemma ends_fit_nil : forall p, ends_fit p [].
Proof. intros p k Hk. cbn in Hk. lia. Qed.
Lemma correct_plain : forall g ps d, correct [ValueError] g (map (fun p => (p, [])) ps) d (build g ps ps d).
Proof.
  intros g ps d.
  assert (F : fronts (map (fun p => (p, [])) ps) = ps).
  { unfold fronts. rewrite map_map. cbn [fst snd length]. erewrite map_ext; [apply map_id|]. intros a. apply first_part_0. }
  rewrite <- F at 2 3. apply correct_build; [|auto]. intros p e H. apply in_map_iff in H as (q & [= <- <-] & _). apply ends_fit_nil.
Qed.

(** Two parents that are joined first. *)
Lemma fits_pair : forall a b m e l P, numpy_broadcast [a; b] m -> fits ((m, e) :: l) P <-> fits ((a, e) :: (b, e) :: l) P.
Proof.
  intros a b m e l P B. unfold fits. split.
  - intros H p x [[= <- <-]|[[= <- <-]|Hp]]; [| |now apply H; right].
    + apply (broadcasts_to_trans _ m); [apply (broadcast_upper _ _ _ B); now left|apply H; now left].
    + apply (broadcasts_to_trans _ m); [apply (broadcast_upper _ _ _ B); right; now left|apply H; now left].
  - intros H p x [[= <- <-]|Hp]; [|apply H; right; now right]. apply (broadcast_least _ _ _ B).
    intros q [<-|[<-|[]]]; apply H; [now left|right; now left].
Qed.
Lemma pair_cases : forall a b, (exists m, total_plates None [a; b] = Ok m /\ numpy_broadcast [a; b] m) \/
  (total_plates None [a; b] = Err ValueError /\ forall e l P, ~ fits ((a, e) :: (b, e) :: l) P).
Proof.
  intros a b. rewrite total_plates_none. destruct (broadcasted_shape [a; b]) as [m|e] eqn:E.
  - left. exists m. split; [reflexivity|]. now apply broadcasted_shape_ok.
  - right. apply broadcasted_shape_err in E as E'. destruct E' as [-> _]. split; [reflexivity|]. intros x l P F.
    destruct (broadcast_exists_of_upper [a; b] (P ++ x)) as [S HS]; [|congruence].
    intros q [<-|[<-|[]]]; apply F; [now left|right; now left].
Qed.

(** ** Nodes whose plates are those of the parents *)
Theorem C63_plain : forall a b K given,
  correct [ValueError] given [(p_plates a, []); (p_plates b, [])] [[]; []] (gamma_node a b given) /\
  correct [ValueError] given [(p_plates a, [])] [[]] (poisson_node a given) /\
  correct [ValueError] given [(p_plates a, [])] [[]] (bernoulli a given) /\
  (is_vector a K -> correct [ValueError] given [(p_plates a, [])] [[K]] (categorical a given)) /\
  (is_vector a K -> correct [ValueError] given [(p_plates a, [])] [[K]] (dirichlet a given)) /\
  (is_vector a 2 -> correct [ValueError] given [(p_plates a, [])] [[2]] (beta a given)).
Proof.
  intros a b K g. split; [|split; [|split; [|split; [|split]]]].
  - apply (correct_plain g [p_plates a; p_plates b]).
  - apply (correct_plain g [p_plates a]).
  - apply (correct_plain g [p_plates a]).
  - intros [r E]. unfold categorical, dim00. rewrite E. cbn [bind]. apply (correct_plain g [p_plates a]).
  - intros [r E]. unfold dirichlet, dim00. rewrite E. cbn [bind]. apply (correct_plain g [p_plates a]).
  - intros [r E]. unfold beta, dim00. rewrite E. cbn [bind]. rewrite dims_eqb_refl. cbn [negb].
    pose proof (correct_plain g [p_plates a] [[2]]) as C. unfold build in *. destruct (total_plates g [p_plates a]); [exact C|].
    cbn [bind] in *. exact C.
Qed.
Theorem C63_beta : forall a K given, is_vector a K -> K <> 2 -> beta a given = Err ValueError.
Proof.
  intros a K g [r E] H. unfold beta, dim00. rewrite E. cbn [bind]. rewrite dims_eqb_neq by congruence.
  destruct (total_plates g [p_plates a]) as [q|e] eqn:T; cbn [bind negb]; [reflexivity|]. destruct g as [P|].
  - destruct (total_plates_some P _ _ T) as [[? _]|[[= <-] _]]; [discriminate|reflexivity].
  - rewrite total_plates_none in T. apply broadcasted_shape_err in T as [-> _]. reflexivity.
Qed.
(** The numbers of trials count as a parent. *)
Theorem C63_counts : forall n p K given,
  correct [ValueError] given [(p_plates p, []); (n, [])] [[]] (binomial n p given) /\
  (is_vector p K -> correct [ValueError] given [(p_plates p, []); (n, [])] [[K]] (multinomial n p given)).
Proof.
  intros n p K g.
  assert (F : fronts [(p_plates p, []); (n, [])] = [p_plates p; n]) by (unfold fronts; cbn [map fst snd length]; now rewrite !first_part_0).
  assert (T : forall q e, In (q, e) [(p_plates p, []); (n, [])] -> ends_fit q e).
  { intros q e [[= <- <-]|[[= <- <-]|[]]]; apply ends_fit_nil. }
  split.
  - unfold binomial. rewrite <- F. apply correct_build; [exact T|]. rewrite F. intros q P [<-|[]] H. apply H. now left.
  - intros [r E]. unfold multinomial, dim00. rewrite E. cbn [bind]. rewrite <- F. apply correct_build; [exact T|]. rewrite F. intros q P [<-|[]] H. apply H. now left.
Qed.

(** ** Gaussian nodes *)
(** The plates of a Gaussian parent when only its last [nd] axes are used as such. *)
Definition seen (mu : par) (s : shape) (nd : nat) : shape := p_plates mu ++ first_part nd s.
Lemma to_ndim_ok : forall nd mu s, is_gaussian mu s -> nd <= length s ->
  to_ndim nd mu = Ok (Par (seen mu s nd) [last_part nd s; last_part nd s ++ last_part nd s]).
Proof.
  intros nd mu s E L. unfold to_ndim, dim0. rewrite E. cbn [bind]. destruct (Nat.ltb_spec (length s) nd); [lia|].
  unfold g2g_plates_from, seen, first_part. destruct (Nat.eqb_spec (length s - nd) 0) as [Q|Q]; [|reflexivity].
  rewrite Q. cbn [firstn]. now rewrite app_nil_r.
Qed.
Lemma to_ndim_short : forall nd mu s, is_gaussian mu s -> length s < nd -> to_ndim nd mu = Err ValueError.
Proof. intros nd mu s E L. unfold to_ndim, dim0. rewrite E. cbn [bind]. apply Nat.ltb_lt in L. now rewrite L. Qed.
Lemma wrap_gg_eq : forall nd mu s alpha, is_gaussian mu s -> nd <= length s -> wrap_gaussian_gamma nd mu alpha =
  (plates <- total_plates None [seen mu s nd; p_plates alpha] ;;
   Ok (Par plates [last_part nd s; last_part nd s ++ last_part nd s; []; []])).
Proof.
  intros nd mu s alpha E L. unfold wrap_gaussian_gamma. rewrite (to_ndim_ok nd mu s E L). cbn [bind dim0 p_dims p_plates].
  rewrite last_part_length by exact L. now rewrite Nat.eqb_refl.
Qed.
Lemma double_inj : forall s t : shape, s ++ s = t ++ t -> s = t.
Proof.
  intros s t H. assert (L : length s = length t) by (apply (f_equal (@length nat)) in H; rewrite !app_length in H; lia).
  apply (f_equal (firstn (length s))) in H. rewrite firstn_app, Nat.sub_diag, firstn_all in H. rewrite L in H.
  rewrite firstn_app, Nat.sub_diag, firstn_all in H. cbn [firstn] in H. now rewrite !app_nil_r in H.
Qed.
Lemma wrap_gw_eq : forall nd mu s Lambda, is_gaussian mu s -> nd <= length s -> is_wishart Lambda (last_part nd s) ->
  wrap_gaussian_wishart nd mu Lambda =
  (plates <- total_plates None [seen mu s nd; p_plates Lambda] ;;
   Ok (Par plates [last_part nd s; []; last_part nd s ++ last_part nd s; []])).
Proof.
  intros nd mu s Lambda E L W. unfold wrap_gaussian_wishart. rewrite (to_ndim_ok nd mu s E L). cbn [bind dim0 p_dims p_plates].
  rewrite W, dims_eqb_refl. reflexivity.
Qed.
Lemma wrap_gw_err : forall nd mu s Lambda t, is_gaussian mu s -> is_wishart Lambda t ->
  length s < nd \/ t <> last_part nd s -> wrap_gaussian_wishart nd mu Lambda = Err ValueError.
Proof.
  intros nd mu s Lambda t E W H. unfold wrap_gaussian_wishart. destruct (Nat.le_gt_cases nd (length s)) as [L|L].
  - rewrite (to_ndim_ok nd mu s E L). cbn [bind dim0 p_dims p_plates]. rewrite W, dims_eqb_neq; [reflexivity|].
    intros [= Q]. apply double_inj in Q. destruct H; [lia|contradiction].
  - rewrite (to_ndim_short nd mu s E L). reflexivity.
Qed.

Section ARD.
Variables (mu alpha : par) (s0 : shape).
Hypothesis mu_gaussian : is_gaussian mu s0.
(** Every axis of mu and alpha can be used. *)
Let m := p_plates mu ++ s0.
Let a := p_plates alpha.
Lemma seen_all : seen mu s0 0 = m.
Proof. unfold seen. now rewrite first_part_0. Qed.
Lemma ard_unfold : forall ndim sh given, gaussian_ard mu alpha ndim sh given =
  (Q <- total_plates None [m; a] ;;
   s <- match ndim, sh with
       | None, None => Ok []
       | None, Some s => Ok s
       | Some n, Some s => if negb (n =? length s) then Err ValueError else Ok s
       | Some n, None => if n =? 0 then Ok [] else if length Q <? n then Err ValueError else Ok (last_part n Q)
       end ;;
   build given [first_part (length s) Q] [first_part (length s) Q] [s; s ++ s]).
Proof.
  intros nd sh g. unfold gaussian_ard. rewrite (wrap_gg_eq 0 mu s0 alpha mu_gaussian) by lia. rewrite seen_all. fold a.
  destruct (total_plates None [m; a]) as [Q|e]; [|reflexivity]. cbn [bind p_plates].
  destruct (match nd, sh with None, None => _ | _, _ => _ end) as [s|e]; [|reflexivity]. cbn [bind].
  destruct (Nat.eqb_spec (length s) 0) as [L|L]; [|reflexivity]. now rewrite L, first_part_0.
Qed.
Lemma ard_correct : forall given s, ends_fit m s -> ends_fit a s ->
  correct [ValueError] given [(m, s); (a, s)] [s; s ++ s]
    (Q <- total_plates None [m; a] ;; build given [first_part (length s) Q] [first_part (length s) Q] [s; s ++ s]).
Proof.
  intros g s Hm Ha. destruct (pair_cases m a) as [(Q & -> & B)|[-> N]]; cbn [bind].
  - apply (correct_iff _ _ [(Q, s)]); [intros P; now apply fits_pair|].
    apply (correct_build g [(Q, s)]); [|auto]. intros p e [[= <- <-]|[]]. intros k Hk. destruct B as (_ & _ & B).
    destruct (B k) as [_ [B1|(x & [<-|[<-|[]]] & B1)]]; [now left| |]; rewrite <- B1; auto.
  - apply correct_err; [|now left]. apply N.
Qed.

(** Without ndim and shape, and with ndim = 0: a scalar in every plate. *)
Theorem C63_ard_scalar : forall given,
  correct [ValueError] given [(m, []); (a, [])] [[]; []] (gaussian_ard mu alpha None None given) /\
  correct [ValueError] given [(m, []); (a, [])] [[]; []] (gaussian_ard mu alpha (Some 0) None given) /\
  correct [ValueError] given [(m, []); (a, [])] [[]; []] (gaussian_ard mu alpha None (Some []) given).
Proof.
  intros g. rewrite !ard_unfold. repeat split; apply (ard_correct g []); apply ends_fit_nil.
Qed.
(** With a shape to which the last axes of mu and alpha broadcast. *)
Theorem C63_ard_shape : forall s given, ends_fit m s -> ends_fit a s ->
  correct [ValueError] given [(m, s); (a, s)] [s; s ++ s] (gaussian_ard mu alpha None (Some s) given) /\
  correct [ValueError] given [(m, s); (a, s)] [s; s ++ s] (gaussian_ard mu alpha (Some (length s)) (Some s) given).
Proof.
  intros s g Hm Ha. rewrite !ard_unfold. rewrite Nat.eqb_refl. cbn [negb]. split; now apply ard_correct.
Qed.
Lemma ard_pair_error : forall ndim sh given, total_plates None [m; a] = Err ValueError -> gaussian_ard mu alpha ndim sh given = Err ValueError.
Proof. intros nd sh g H. rewrite ard_unfold, H. reflexivity. Qed.
Theorem C63_ard_inconsistent : forall n s given, n <> length s -> gaussian_ard mu alpha (Some n) (Some s) given = Err ValueError.
Proof.
  intros n s g H. destruct (pair_cases m a) as [(Q & E & _)|[E _]]; [|now apply ard_pair_error].
  rewrite ard_unfold, E. cbn [bind]. apply Nat.eqb_neq in H. now rewrite H.
Qed.
(** With ndim only: the shape is made of the last axes of mu and alpha together. *)
Theorem C63_ard_ndim : forall n Q given, 0 < n -> numpy_broadcast [m; a] Q ->
  (n <= length Q ->
     let s := last_part n Q in
     correct [ValueError] given [(m, s); (a, s)] [s; s ++ s] (gaussian_ard mu alpha (Some n) None given)) /\
  (length Q < n -> gaussian_ard mu alpha (Some n) None given = Err ValueError).
Proof.
  intros n Q g Hn B. rewrite ard_unfold.
  assert (T : total_plates None [m; a] = Ok Q) by (rewrite total_plates_none; now apply broadcasted_shape_ok).
  destruct (Nat.eqb_spec n 0); [lia|]. split.
  - intros L s. pose proof (ard_correct g s) as C. rewrite T in *. cbn [bind] in *. destruct (Nat.ltb_spec (length Q) n); [lia|]. cbn [bind].
    apply C; intros k Hk; unfold s in *; rewrite last_part_length in Hk by exact L; rewrite ax_last_part by assumption;
      destruct B as (_ & _ & B); apply B; [now left|right; now left].
  - intros L. rewrite T. cbn [bind]. apply Nat.ltb_lt in L. now rewrite L.
Qed.
Theorem C63_ard_clash : forall ndim sh given, clash [m; a] -> gaussian_ard mu alpha ndim sh given = Err ValueError.
Proof. intros nd sh g H. apply ard_pair_error. rewrite total_plates_none. now apply broadcasted_shape_error_iff. Qed.
(** The last axes are not compared with the given shape: a node is made, although no
    plates fit. *)
Theorem C63_ard_shape_refuted : forall s, clash [m; a] \/
  exists P, gaussian_ard mu alpha None (Some s) None = Ok (P, [s; s ++ s]) /\
    (~ ends_fit m s -> forall T, ~ fits [(m, s); (a, s)] T).
Proof.
  intros s. destruct (pair_cases m a) as [(Q & E & _)|[E _]].
  - right. exists (first_part (length s) Q). split.
    + rewrite ard_unfold, E. cbn [bind]. unfold build. rewrite !total_plates_none.
      assert (H : broadcasted_shape [first_part (length s) Q] = Ok (first_part (length s) Q)).
      { destruct (broadcast_exists_of_upper [first_part (length s) Q] (first_part (length s) Q)) as [S HS].
        - intros q [<-|[]]. apply broadcasts_to_refl.
        - rewrite HS. f_equal. apply broadcasted_shape_ok in HS. apply broadcasts_to_antisym.
          + apply (broadcast_least _ _ _ HS). intros q [<-|[]]. apply broadcasts_to_refl.
          + apply (broadcast_upper _ _ _ HS). now left. }
      rewrite !H. reflexivity.
    + intros H T. apply (fits_no_tail _ m s); [now left|exact H].
  - left. rewrite total_plates_none in E. now apply broadcasted_shape_error_iff.
Qed.
End ARD.

(** Gaussian, Gaussian-gamma: mu can have more axes than ndim, the others are plates. *)
Theorem C63_gaussian : forall mu s0 Lambda nd given, is_gaussian mu s0 -> nd <= length s0 ->
  let s := last_part nd s0 in
  is_wishart Lambda s ->
  correct [ValueError] given [(seen mu s0 nd, []); (p_plates Lambda, [])] [s; s ++ s] (gaussian mu Lambda nd given) /\
  forall a b, is_scalar a -> is_scalar b ->
  correct [ValueError] given [(seen mu s0 nd, []); (p_plates Lambda, []); (p_plates a, []); (p_plates b, [])]
    [s; s ++ s; []; []] (gaussian_gamma mu Lambda a b nd given).
Proof.
  intros mu s0 Lambda nd g E L s W. unfold gaussian, gaussian_gamma. rewrite (wrap_gw_eq nd mu s0 Lambda E L W). fold s.
  destruct (pair_cases (seen mu s0 nd) (p_plates Lambda)) as [(Q & -> & B)|[-> N]]; cbn [bind dim0 p_dims p_plates].
  - rewrite dims_eqb_refl. cbn [negb]. split.
    + apply (correct_iff _ _ [(Q, [])]); [intros P; now apply fits_pair|]. apply (correct_plain g [Q]).
    + intros a b Sa Sb. rewrite Sa, Sb, dims_eqb_refl. cbn [negb].
      apply (correct_iff _ _ [(Q, []); (p_plates a, []); (p_plates b, [])]); [intros P; now apply fits_pair|]. apply (correct_plain g [Q; p_plates a; p_plates b]).
  - split; [|intros a b Sa Sb]; (apply correct_err; [apply N|now left]).
Qed.
Theorem C63_gaussian_mismatch : forall mu s0 Lambda t a b nd given, is_gaussian mu s0 -> is_wishart Lambda t ->
  length s0 < nd \/ t <> last_part nd s0 ->
  gaussian mu Lambda nd given = Err ValueError /\ gaussian_gamma mu Lambda a b nd given = Err ValueError.
Proof.
  intros mu s0 Lambda t a b nd g E W H. unfold gaussian, gaussian_gamma. now rewrite (wrap_gw_err nd mu s0 Lambda t E W H).
Qed.
Theorem C63_wishart : forall n V D given, is_wishart V [D] ->
  correct [ValueError] given [(p_plates n, []); (p_plates V, [])] [[D; D]; []] (wishart n V given).
Proof.
  intros n V D g E. unfold wishart, dim0. rewrite E. cbn [bind app rev]. apply (correct_plain g [p_plates n; p_plates V]).
Qed.
Theorem C63_gaussian_wishart : forall mu s0 alpha n V D given, is_gaussian mu s0 -> 1 <= length s0 -> last_part 1 s0 = [D] ->
  is_scalar n -> 
  (is_wishart V [D] ->
   correct [ValueError] given [(seen mu s0 1, []); (p_plates alpha, []); (p_plates n, []); (p_plates V, [])]
     [[D]; []; [D; D]; []] (gaussian_wishart mu alpha n V given)) /\
  (forall t, is_wishart V t -> t <> [D] -> gaussian_wishart mu alpha n V given = Err ValueError).
Proof.
  intros mu s0 alpha n V D g E L Q Sn. unfold gaussian_wishart. rewrite (wrap_gg_eq 1 mu s0 alpha E L), Q.
  destruct (pair_cases (seen mu s0 1) (p_plates alpha)) as [(M & -> & B)|[-> N]]; cbn [bind dim00 p_dims p_plates app].
  - rewrite dims_eqb_refl. cbn [negb]. split.
    + intros W. rewrite W, Sn. cbn [app]. rewrite !dims_eqb_refl. cbn [negb].
      apply (correct_iff _ _ [(M, []); (p_plates n, []); (p_plates V, [])]); [intros P; now apply fits_pair|]. apply (correct_plain g [M; p_plates n; p_plates V]).
    + intros t W Ht. rewrite W, dims_eqb_neq; [reflexivity|]. intros [= H]. apply Ht. now apply double_inj.
  - split; [|reflexivity]. intros _. apply correct_err; [apply N|now left].
Qed.

(** ** Markov chains *)
Lemma ends_fit1 : forall p x, ends_fit p [x] <-> (ax p 0 = 1 \/ ax p 0 = x).
Proof.
  intros p x. split; [intros H; apply (H 0); cbn; lia|]. intros H [|k] Hk; [exact H|cbn in Hk; lia].
Qed.
Lemma ends_fit2 : forall p x y, ends_fit p [x; y] <-> (ax p 0 = 1 \/ ax p 0 = y) /\ (ax p 1 = 1 \/ ax p 1 = x).
Proof.
  intros p x y. split.
  - intros H. split; [apply (H 0)|apply (H 1)]; cbn; lia.
  - intros [H0 H1] [|[|k]] Hk; [exact H0|exact H1|cbn in Hk; lia].
Qed.

Section CMC.
Variables (p0 P : par) (K : nat).
Hypothesis p0_dims : p_dims p0 = [[K]].
Hypothesis P_dims : p_dims P = [[K]].
Lemma cmc_unfold : 1 <= length (p_plates P) -> ax (p_plates P) 0 = K -> forall states given,
  categorical_markov_chain p0 P states given =
  (N <- (if length (p_plates P) <? 2 then match states with None => Err ValueError | Some n => Ok n end
        else if ax (p_plates P) 1 =? 1 then match states with None => Ok 2 | Some n => Ok n end
        else match states with
             | Some n => if negb (ax (p_plates P) 1 + 1 =? n) then Err ValueError else Ok (ax (p_plates P) 1 + 1)
             | None => Ok (ax (p_plates P) 1 + 1)
             end) ;;
   build given (fronts [(p_plates p0, []); (p_plates P, [N - 1; K])]) (fronts [(p_plates p0, []); (p_plates P, [N - 1; K])])
     [[K]; [N - 1; K; K]]).
Proof.
  intros L A states g. unfold categorical_markov_chain, dim00. rewrite p0_dims, P_dims. cbn [bind].
  destruct (if length (p_plates P) <? 2 then _ else _) as [N|e]; [|reflexivity]. cbn [bind]. rewrite dims_eqb_refl, A, Nat.eqb_refl.
  destruct (Nat.ltb_spec (length (p_plates P)) 1); [lia|]. cbn [negb orb]. unfold fronts. cbn [map fst snd length]. now rewrite first_part_0.
Qed.
(** The number of states is given, or follows from the plates of the transition
    probabilities. *)
Theorem C63_categorical_markov_chain : 1 <= length (p_plates P) -> ax (p_plates P) 0 = K -> forall given,
  (forall n, 1 <= n -> correct [ValueError] given [(p_plates p0, []); (p_plates P, [n - 1; K])] [[K]; [n - 1; K; K]]
     (categorical_markov_chain p0 P (Some n) given)) /\
  (2 <= length (p_plates P) ->
   correct [ValueError] given [(p_plates p0, []); (p_plates P, [ax (p_plates P) 1; K])] [[K]; [ax (p_plates P) 1; K; K]]
     (categorical_markov_chain p0 P None given)) /\
  (length (p_plates P) < 2 -> categorical_markov_chain p0 P None given = Err ValueError).
Proof.
  intros L A g.
  assert (G : forall m, ax (p_plates P) 1 = 1 \/ ax (p_plates P) 1 = m ->
    correct [ValueError] g [(p_plates p0, []); (p_plates P, [m; K])] [[K]; [m; K; K]]
      (build g (fronts [(p_plates p0, []); (p_plates P, [m; K])]) (fronts [(p_plates p0, []); (p_plates P, [m; K])]) [[K]; [m; K; K]])).
  { intros m Hm. apply correct_build; [|auto]. intros p e [[= <- <-]|[[= <- <-]|[]]]; [apply ends_fit_nil|]. apply ends_fit2. split; [now right|exact Hm]. }
  split; [|split].
  - intros n Hn. rewrite (cmc_unfold L A). destruct (Nat.ltb_spec (length (p_plates P)) 2) as [C|C]; cbn [bind].
    + apply G. left. apply ax_overflow. lia.
    + destruct (Nat.eqb_spec (ax (p_plates P) 1) 1) as [E|E]; cbn [bind]; [apply G; now left|].
      destruct (Nat.eqb_spec (ax (p_plates P) 1 + 1) n) as [F|F]; cbn [bind negb].
      * rewrite F. apply G. right. lia.
      * apply correct_err; [|now left]. intros T. apply (fits_no_tail _ (p_plates P) [n - 1; K]); [right; now left|]. rewrite ends_fit2. lia.
  - intros C. rewrite (cmc_unfold L A). destruct (Nat.ltb_spec (length (p_plates P)) 2); [lia|].
    destruct (Nat.eqb_spec (ax (p_plates P) 1) 1) as [E|E]; cbn [bind].
    + rewrite E. apply (G 1). now left.
    + rewrite Nat.add_sub. apply G. now right.
  - intros C. rewrite (cmc_unfold L A). apply Nat.ltb_lt in C. now rewrite C.
Qed.
End CMC.
(** Transition probabilities that are not a square matrix over the states of the initial
    probabilities. *)
Theorem C63_categorical_markov_chain_square : forall p0 P K K' states given, p_dims p0 = [[K]] -> p_dims P = [[K']] ->
  K <> K' \/ p_plates P = [] \/ ax (p_plates P) 0 <> K -> categorical_markov_chain p0 P states given = Err ValueError.
Proof.
  intros p0 P K K' states g E0 E H. unfold categorical_markov_chain, dim00. rewrite E0, E. cbn [bind].
  assert (R : forall N, (if negb (dims_eqb [[K]] [[K']]) then Err ValueError
     else if (length (p_plates P) <? 1) || negb (ax (p_plates P) 0 =? K) then Err ValueError
     else build g [p_plates p0; first_part 2 (p_plates P)] [p_plates p0; first_part 2 (p_plates P)] [[K]; [N - 1; K; K]]) = Err ValueError).
  { intros N. destruct (Nat.eq_dec K K') as [<-|Q].
    - rewrite dims_eqb_refl. cbn [negb]. destruct H as [H|[H|H]]; [contradiction|now rewrite H|]. apply Nat.eqb_neq in H. rewrite H. cbn [negb]. now rewrite orb_true_r.
    - rewrite dims_eqb_neq by congruence. reflexivity. }
  destruct (length (p_plates P) <? 2); [destruct states; cbn [bind]; [apply R|reflexivity]|].
  destruct (ax (p_plates P) 1 =? 1); destruct states as [n|]; cbn [bind]; try apply R.
  destruct (Nat.eqb (ax (p_plates P) 1 + 1) n); cbn [bind negb]; [apply R|reflexivity].
Qed.

Section GMC.
Variables (mu Lambda A nu : par) (s0 s1 Q : shape) (D Di : nat).
Hypothesis mu_gaussian : is_gaussian mu s0.
Hypothesis mu_axes : 1 <= length s0.
Hypothesis mu_D : last_part 1 s0 = [D].
Hypothesis Lambda_D : is_wishart Lambda [D].
Hypothesis A_gaussian : is_gaussian A s1.
Hypothesis A_axes : 1 <= length s1.
Hypothesis A_D : last_part 1 s1 = [D + Di].
Hypothesis A_nu : numpy_broadcast [seen A s1 1; p_plates nu] Q.
Hypothesis Q_axes : 1 <= length Q.
Hypothesis Q_D : ax Q 0 = D.
Let m := seen mu s0 1.
Let dyn := seen A s1 1.
(** What the parents see of a chain of length M. *)
Definition chain_parents (inputs : option par) (M : nat) : list (shape * shape) :=
  [(m, []); (p_plates Lambda, []); (dyn, [M - 1; D]); (p_plates nu, [M - 1; D])] ++
  match inputs with None => [] | Some i => [(p_plates i, [M - 1])] end.
Definition inputs_ok (inputs : option par) : Prop :=
  match inputs with None => Di = 0 | Some i => is_gaussian i [Di] /\ 0 < ax (p_plates i) 0 end.
Let n_inputs (inputs : option par) : nat := match inputs with None => 1 | Some i => ax (p_plates i) 0 end.
Let after (inputs : option par) (given : option shape) (W : shape) (M : nat) : res node :=
  if (2 <=? length Q) && negb (ax Q 1 =? 1) && negb (ax Q 1 =? M - 1) then Err ValueError
  else build given [W; first_part 2 Q]
         ([W; first_part 2 Q] ++ match inputs with None => [] | Some i => [first_part 1 (p_plates i)] end) (chain_shape M D).
Lemma gmc_unfold : forall n inputs given, inputs_ok inputs ->
  gaussian_markov_chain mu Lambda A nu n inputs given =
  (W <- total_plates None [m; p_plates Lambda] ;;
   if negb (n_inputs inputs =? ax Q 1) && negb (n_inputs inputs =? 1) && negb (ax Q 1 =? 1) then Err PyException
   else M <- chain_length n (Nat.max (ax Q 1) (n_inputs inputs)) ;; after inputs given W M).
Proof.
  intros n inputs g I. unfold gaussian_markov_chain.
  rewrite (wrap_gw_eq 1 mu s0 Lambda mu_gaussian mu_axes) by (rewrite mu_D; exact Lambda_D). rewrite mu_D.
  rewrite (wrap_gg_eq 1 A s1 nu A_gaussian A_axes), A_D. fold m dyn.
  destruct (total_plates None [m; p_plates Lambda]) as [W|e]; [|reflexivity]. cbn [bind].
  assert (T : total_plates None [dyn; p_plates nu] = Ok Q) by (rewrite total_plates_none; now apply broadcasted_shape_ok).
  rewrite T. cbn [bind p_plates dim00 p_dims app].
  assert (Dq : match inputs with None => Ok 0 | Some i => dim00 i end = Ok Di).
  { destruct inputs as [i|]; [|cbn in I; now rewrite I]. destruct I as [I _]. unfold dim00. now rewrite I. }
  rewrite Dq. cbn [bind]. fold (n_inputs inputs).
  destruct (negb (n_inputs inputs =? ax Q 1) && negb (n_inputs inputs =? 1) && negb (ax Q 1 =? 1)); [reflexivity|].
  destruct (chain_length n (Nat.max (ax Q 1) (n_inputs inputs))) as [M|e]; [|reflexivity]. cbn [bind]. rewrite !dims_eqb_refl. cbn [negb].
  assert (L : (length Q =? 0) || negb (ax Q 0 =? D) = false).
  { rewrite Q_D, Nat.eqb_refl. destruct (Nat.eqb_spec (length Q) 0); [lia|reflexivity]. }
  rewrite L. unfold after. destruct ((2 <=? length Q) && negb (ax Q 1 =? 1) && negb (ax Q 1 =? M - 1)); [reflexivity|].
  destruct inputs as [i|]; [|reflexivity]. destruct I as [I _]. rewrite I. cbn [app]. now rewrite dims_eqb_refl.
Qed.
(** The chain is long enough for both time axes. *)
Let good (inputs : option par) (M : nat) : Prop :=
  (ax Q 1 = 1 \/ ax Q 1 = M - 1) /\ (n_inputs inputs = 1 \/ n_inputs inputs = M - 1).
Lemma gmc_good : forall inputs given M, inputs_ok inputs -> 1 <= M -> good inputs M ->
  gaussian_markov_chain mu Lambda A nu (Some M) inputs given =
  (W <- total_plates None [m; p_plates Lambda] ;;
   build given [W; first_part 2 Q]
         ([W; first_part 2 Q] ++ match inputs with None => [] | Some i => [first_part 1 (p_plates i)] end) (chain_shape M D)).
Proof.
  intros inputs g M I HM [G1 G2]. rewrite (gmc_unfold _ _ _ I). destruct (total_plates None _) as [W|]; [|reflexivity]. cbn [bind].
  assert (Y : 0 < n_inputs inputs) by (destruct inputs; [apply I|cbn; lia]).
  set (x := ax Q 1) in *. set (y := n_inputs inputs) in *.
  assert (C1 : negb (y =? x) && negb (y =? 1) && negb (x =? 1) = false).
  { destruct (Nat.eqb_spec y x), (Nat.eqb_spec y 1), (Nat.eqb_spec x 1); cbn; try reflexivity. lia. }
  rewrite C1. unfold chain_length.
  assert (C2 : negb (Nat.max x y =? 1) && negb (Nat.max x y + 1 =? M) = false).
  { destruct (Nat.eqb_spec (Nat.max x y) 1), (Nat.eqb_spec (Nat.max x y + 1) M); cbn; try reflexivity. lia. }
  rewrite C2. cbn [bind]. unfold after. fold x.
  assert (C3 : (2 <=? length Q) && negb (x =? 1) && negb (x =? M - 1) = false).
  { destruct (Nat.eqb_spec x 1), (Nat.eqb_spec x (M - 1)); cbn; rewrite ?andb_false_r; try reflexivity. lia. }
  now rewrite C3.
Qed.
Lemma gmc_bad : forall inputs given M, inputs_ok inputs -> 1 <= M -> ~ good inputs M ->
  exists e, In e [ValueError; PyException] /\ gaussian_markov_chain mu Lambda A nu (Some M) inputs given = Err e.
Proof.
  intros inputs g M I HM G. rewrite (gmc_unfold _ _ _ I).
  destruct (pair_cases m (p_plates Lambda)) as [(W & -> & _)|[-> _]]; cbn [bind]; [|exists ValueError; split; [now left|reflexivity]].
  assert (Y : 0 < n_inputs inputs) by (destruct inputs; [apply I|cbn; lia]).
  unfold good in G. set (x := ax Q 1) in *. set (y := n_inputs inputs) in *.
  destruct (negb (y =? x) && negb (y =? 1) && negb (x =? 1)) eqn:C1; [exists PyException; split; [right; now left|reflexivity]|].
  unfold chain_length. destruct (negb (Nat.max x y =? 1) && negb (Nat.max x y + 1 =? M)) eqn:C2; [exists PyException; split; [right; now left|reflexivity]|].
  cbn [bind]. unfold after. fold x.
  assert (C3 : (2 <=? length Q) && negb (x =? 1) && negb (x =? M - 1) = true).
  { assert (X : x <> 1 -> 2 <= length Q).
    { intros X. destruct (Nat.le_gt_cases 2 (length Q)); [assumption|]. exfalso. apply X. unfold x. apply ax_overflow. lia. }
    destruct (Nat.eqb_spec y x), (Nat.eqb_spec y 1), (Nat.eqb_spec x 1), (Nat.eqb_spec (Nat.max x y) 1), (Nat.eqb_spec (Nat.max x y + 1) M), (Nat.eqb_spec x (M - 1)), (Nat.leb_spec 2 (length Q));
      cbn in *; try reflexivity; try discriminate; exfalso; try apply G; lia. }
  rewrite C3. exists ValueError. split; [now left|reflexivity].
Qed.
Lemma chain_fits : forall inputs M P, inputs_ok inputs -> fits (chain_parents inputs M) P -> good inputs M.
Proof.
  intros inputs M P I F. unfold chain_parents in F.
  assert (FQ : broadcasts_to Q (P ++ [M - 1; D])).
  { apply (broadcast_least _ _ _ A_nu). intros q [<-|[<-|[]]]; apply F; apply in_or_app; left; [right; right; now left|right; right; right; now left]. }
  apply split_broadcast in FQ as [_ E]. apply ends_fit2 in E as [_ E]. split; [exact E|]. destruct inputs as [i|]; [|now left]. cbn.
  assert (FI : broadcasts_to (p_plates i) (P ++ [M - 1])) by (apply F; apply in_or_app; right; now left).
  apply split_broadcast in FI as [_ EI]. now apply ends_fit1.
Qed.
Lemma chain_fits_iff : forall inputs M W P, numpy_broadcast [m; p_plates Lambda] W ->
  fits ([(W, []); (Q, [M - 1; D])] ++ match inputs with None => [] | Some i => [(p_plates i, [M - 1])] end) P <->
  fits (chain_parents inputs M) P.
Proof.
  intros inputs M W P B. unfold chain_parents. set (l := match inputs with None => [] | Some i => [(p_plates i, [M - 1])] end).
  cbn [app]. rewrite (fits_pair _ _ W [] _ P B).
  assert (C : forall a l l' P, (fits l P <-> fits l' P) -> (fits (a :: l) P <-> fits (a :: l') P)).
  { intros a l1 l2 P' [H1 H2]. split; intros H' p x [E|E]; [apply H'; now left| |apply H'; now left|].
    - exact (H1 (fun q y Hq => H' q y (or_intror Hq)) p x E).
    - exact (H2 (fun q y Hq => H' q y (or_intror Hq)) p x E). }
  apply C, C. apply fits_pair, A_nu.
Qed.

(** Without inputs, and with inputs and given plates. *)
Theorem C63_gaussian_markov_chain : forall inputs given M, inputs_ok inputs -> 1 <= M ->
  inputs = None \/ given <> None ->
  correct [ValueError; PyException] given (chain_parents inputs M) (chain_shape M D)
    (gaussian_markov_chain mu Lambda A nu (Some M) inputs given).
Proof.
  intros inputs g M I HM HI.
  assert (Dec : good inputs M \/ ~ good inputs M) by (unfold good; lia). destruct Dec as [G|G].
  - rewrite (gmc_good _ _ _ I HM G). destruct (pair_cases m (p_plates Lambda)) as [(W & -> & B)|[-> N]]; cbn [bind].
    + apply (correct_iff _ _ ([(W, []); (Q, [M - 1; D])] ++ match inputs with None => [] | Some i => [(p_plates i, [M - 1])] end)).
      { intros P. now apply chain_fits_iff. }
      apply (correct_weaken [ValueError]); [intros e [<-|[]]; now left|].
      set (l := [(W, []); (Q, [M - 1; D])] ++ match inputs with None => [] | Some i => [(p_plates i, [M - 1])] end).
      assert (T : forall p e, In (p, e) l -> ends_fit p e).
      { unfold l. intros p e H. apply in_app_or in H as [[[= <- <-]|[[= <- <-]|[]]]|H].
        - apply ends_fit_nil.
        - apply ends_fit2. split; [now right|apply G].
        - destruct inputs as [i|]; [|destruct H]. destruct H as [[= <- <-]|[]]. apply ends_fit1. apply G. }
      assert (Fr : fronts l = [W; first_part 2 Q] ++ match inputs with None => [] | Some i => [first_part 1 (p_plates i)] end).
      { unfold l, fronts. rewrite map_app. cbn [map fst snd length]. rewrite first_part_0. now destruct inputs. }
      rewrite <- Fr. destruct inputs as [i|].
      * destruct g as [P|]; [|destruct HI; congruence]. pose proof (correct_build (Some P) l (fronts l) (chain_shape M D) T (fun q P H K => K q H)) as C.
        unfold correct, build in *. rewrite Fr in *. destruct C as [C1 C2].
        destruct (total_plates_some P [W; first_part 2 Q] _ eq_refl) as [[-> H]|[-> (p & Hp & H)]]; cbn [bind].
        -- destruct (total_plates_some P ([W; first_part 2 Q] ++ [first_part 1 (p_plates i)]) _ eq_refl) as [[E H']|[E H']]; rewrite E in *; cbn [bind] in *; now split.
        -- split; [|intros _; exists ValueError; split; [now left|reflexivity]]. intros F. exfalso. apply H.
           pose proof (proj1 (fits_fronts l T P) F) as F'. rewrite Fr in F'. apply F'. apply in_or_app. now left.
      * rewrite app_nil_r in *. rewrite <- Fr. apply correct_build; [exact T|auto].
    + apply correct_err; [|now left]. intros P F. apply (N [] (tl (tl (chain_parents inputs M))) P). exact F.
  - destruct (gmc_bad _ g _ I HM G) as (e & He & ->). apply correct_err; [|exact He]. intros P F. apply G. now apply (chain_fits _ _ P).
Qed.
(** The length of the chain follows from the time axes of the parents. *)
Theorem C63_chain_length : forall inputs given, inputs_ok inputs ->
  let T := Nat.max (ax Q 1) (n_inputs inputs) in
  (T <> 1 -> gaussian_markov_chain mu Lambda A nu None inputs given = gaussian_markov_chain mu Lambda A nu (Some (T + 1)) inputs given) /\
  (T = 1 -> exists e, gaussian_markov_chain mu Lambda A nu None inputs given = Err e).
Proof.
  intros inputs g I T. rewrite !(gmc_unfold _ _ _ I). fold T. split.
  - intros H. unfold chain_length. apply Nat.eqb_neq in H. rewrite H, Nat.eqb_refl. reflexivity.
  - intros H. rewrite H. destruct (total_plates None [m; p_plates Lambda]); cbn [bind]; [|eauto].
    destruct (negb (n_inputs inputs =? ax Q 1) && negb (n_inputs inputs =? 1) && negb (ax Q 1 =? 1)); [eauto|]. cbn. eauto.
Qed.
(** With inputs and no given plates the plates of the inputs are not counted: the node
    gets plates to which the inputs do not broadcast. *)
Theorem C63_inputs_refuted : forall i P T M, inputs_ok (Some i) -> 1 <= M ->
  fits (chain_parents (Some i) M) T -> least (chain_parents None M) P ->
  gaussian_markov_chain mu Lambda A nu (Some M) (Some i) None = Ok (P, chain_shape M D) /\
  (~ broadcasts_to (p_plates i) (P ++ [M - 1]) -> ~ fits (chain_parents (Some i) M) P).
Proof.
  intros i P T M I HM F [F0 L0]. pose proof (chain_fits _ _ _ I F) as G. split.
  - rewrite (gmc_good _ _ _ I HM G). destruct (pair_cases m (p_plates Lambda)) as [(W & -> & B)|[_ N]]; cbn [bind].
    2:{ exfalso. apply (N [] (tl (tl (chain_parents None M))) P). exact F0. }
    pose proof (chain_fits_iff None M W) as X. cbn [app] in X.
    assert (E : forall p e, In (p, e) [(W, []); (Q, [M - 1; D])] -> ends_fit p e).
    { intros p e [[= <- <-]|[[= <- <-]|[]]]; [apply ends_fit_nil|]. apply ends_fit2. split; [now right|apply G]. }
    pose proof (correct_build None [(W, []); (Q, [M - 1; D])] [W; first_part 2 Q] (chain_shape M D) E) as C.
    unfold fronts in C. cbn [map fst snd length] in C. rewrite first_part_0 in C. destruct C as [C _]; [auto|].
    assert (Le : least [(W, []); (Q, [M - 1; D])] P).
    { split; [now apply X|]. intros T' F'. apply L0. now apply X. }
    specialize (C P Le). unfold build in *. destruct (total_plates None [W; first_part 2 Q]) as [q|]; [|discriminate]. cbn [bind] in *.
    injection C as ->. rewrite total_plates_none.
    apply (chain_fits_iff (Some i) M W T B) in F.
    destruct (broadcast_exists_of_upper ([W; first_part 2 Q] ++ [first_part 1 (p_plates i)]) T) as [S ->]; [|reflexivity].
    intros q [<-|[<-|[<-|[]]]].
    + specialize (F W [] ltac:(now left)). now rewrite app_nil_r in F.
    + specialize (F Q [M - 1; D] ltac:(right; now left)). now apply split_broadcast in F as [F _].
    + specialize (F (p_plates i) [M - 1] ltac:(right; right; now left)). now apply split_broadcast in F as [F _].
  - intros H F'. apply H. apply F'. unfold chain_parents. apply in_or_app. right. now left.
Qed.
End GMC.

Section Varying.
Variables (mu Lambda B S v : par) (D K : nat).
Hypothesis mu_D : is_gaussian mu [D].
Hypothesis Lambda_D : is_wishart Lambda [D].
Hypothesis v_scalar : is_scalar v.
Hypothesis v_axes : 1 <= length (p_plates v).
Hypothesis v_D : ax (p_plates v) 0 = D.
Let x := ax (p_plates v) 1.
Lemma chain_axes : forall x y M, 1 <= M -> x = 1 \/ x = M - 1 -> y = 1 \/ y = M - 1 ->
  negb (x =? y) && negb (x =? 1) && negb (y =? 1) = false /\ chain_length (Some M) (Nat.max x y) = Ok M.
Proof.
  intros a b M HM Ha Hb. unfold chain_length.
  destruct (Nat.eqb_spec a b), (Nat.eqb_spec a 1), (Nat.eqb_spec b 1), (Nat.eqb_spec (Nat.max a b) 1), (Nat.eqb_spec (Nat.max a b + 1) M);
    cbn; split; reflexivity || lia.
Qed.
Lemma chain_length_some : forall T M r, chain_length (Some M) T = r -> r = Ok M \/ r = Err PyException.
Proof. intros T M r <-. unfold chain_length. destruct (_ && _); auto. Qed.
Lemma time_ok : forall p M, ax p 1 = 1 \/ ax p 1 = M - 1 -> (2 <=? length p) && negb (ax p 1 =? 1) && negb (ax p 1 =? M - 1) = false.
Proof. intros p M H. destruct (Nat.eqb_spec (ax p 1) 1), (Nat.eqb_spec (ax p 1) (M - 1)); cbn; rewrite ?andb_false_r; try reflexivity. lia. Qed.
Lemma time_bad : forall p M, ~ (ax p 1 = 1 \/ ax p 1 = M - 1) -> (2 <=? length p) && negb (ax p 1 =? 1) && negb (ax p 1 =? M - 1) = true.
Proof.
  intros p M H. destruct (Nat.leb_spec 2 (length p)) as [L|L].
  - destruct (Nat.eqb_spec (ax p 1) 1), (Nat.eqb_spec (ax p 1) (M - 1)); cbn; try reflexivity; lia.
  - exfalso. apply H. left. apply ax_overflow. lia.
Qed.
Lemma time0_ok : forall p M, ax p 0 = 1 \/ ax p 0 = M - 1 -> (1 <=? length p) && negb (ax p 0 =? 1) && negb (ax p 0 =? M - 1) = false.
Proof. intros p M H. destruct (Nat.eqb_spec (ax p 0) 1), (Nat.eqb_spec (ax p 0) (M - 1)); cbn; rewrite ?andb_false_r; try reflexivity. lia. Qed.
Lemma time0_bad : forall p M, ~ (ax p 0 = 1 \/ ax p 0 = M - 1) -> (1 <=? length p) && negb (ax p 0 =? 1) && negb (ax p 0 =? M - 1) = true.
Proof.
  intros p M H. destruct (Nat.leb_spec 1 (length p)) as [L|L].
  - destruct (Nat.eqb_spec (ax p 0) 1), (Nat.eqb_spec (ax p 0) (M - 1)); cbn; try reflexivity; lia.
  - exfalso. apply H. left. apply ax_overflow. lia.
Qed.

(** The dynamics B, weighted by the Gaussian S at each time. *)
Theorem C63_varying : is_gaussian B [D; K] -> 1 <= length (p_plates B) -> ax (p_plates B) 0 = D -> is_gaussian S [K] ->
  forall given,
  (forall M, 1 <= M -> correct [ValueError; PyException] given
     [(p_plates mu, []); (p_plates Lambda, []); (p_plates B, [D]); (p_plates S, [M - 1]); (p_plates v, [M - 1; D])]
     (chain_shape M D) (varying_markov_chain mu Lambda B S v (Some M) given)) /\
  (let T := Nat.max (ax (p_plates v) 1) (ax (p_plates S) 0) in
   (T <> 1 -> varying_markov_chain mu Lambda B S v None given = varying_markov_chain mu Lambda B S v (Some (T + 1)) given) /\
   (T = 1 -> varying_markov_chain mu Lambda B S v None given = Err PyException)).
Proof.
  intros B_D B_axes B_0 S_K g.
  assert (U : forall n, varying_markov_chain mu Lambda B S v n g =
    if negb (x =? ax (p_plates S) 0) && negb (x =? 1) && negb (ax (p_plates S) 0 =? 1) then Err PyException
    else M <- chain_length n (Nat.max x (ax (p_plates S) 0)) ;;
      if (1 <=? length (p_plates S)) && negb (ax (p_plates S) 0 =? 1) && negb (ax (p_plates S) 0 =? M - 1) then Err ValueError
      else if (2 <=? length (p_plates v)) && negb (ax (p_plates v) 1 =? 1) && negb (ax (p_plates v) 1 =? M - 1) then Err ValueError
      else let l := fronts [(p_plates mu, []); (p_plates Lambda, []); (p_plates B, [D]); (p_plates S, [M - 1]); (p_plates v, [M - 1; D])] in
        build g l l (chain_shape M D)).
  { intros n. unfold varying_markov_chain. fold x. destruct (negb (x =? ax (p_plates S) 0) && _ && _); [reflexivity|].
    destruct (chain_length n (Nat.max x (ax (p_plates S) 0))) as [M|e]; [|reflexivity]. cbn [bind]. unfold dim00, dim0.
    red in mu_D, Lambda_D, v_scalar, B_D, S_K. rewrite mu_D, Lambda_D, v_scalar, B_D, S_K. cbn [bind app]. change (ax [D; K] 0) with K.
    rewrite !dims_eqb_refl, B_0, v_D, !Nat.eqb_refl. cbn [negb].
    destruct (Nat.eqb_spec (length (p_plates B)) 0); [lia|]. destruct (Nat.eqb_spec (length (p_plates v)) 0); [lia|]. cbn [orb].
    unfold fronts. cbn [map fst snd length]. rewrite !first_part_0. fold x. reflexivity. }
  split.
  - intros M HM. rewrite U. set (y := ax (p_plates S) 0) in *.
    assert (Dec : ((x = 1 \/ x = M - 1) /\ (y = 1 \/ y = M - 1)) \/ ~ ((x = 1 \/ x = M - 1) /\ (y = 1 \/ y = M - 1))) by lia.
    destruct Dec as [[Gx Gy]|G].
    + destruct (chain_axes x y M HM Gx Gy) as [C1 C2]. rewrite C1, C2. cbn [bind]. rewrite (time_ok (p_plates v) M Gx). unfold y. rewrite (time0_ok (p_plates S) M Gy).
      apply (correct_weaken [ValueError]); [intros e [<-|[]]; now left|]. apply correct_build; [|auto].
      intros p e [[= <- <-]|[[= <- <-]|[[= <- <-]|[[= <- <-]|[[= <- <-]|[]]]]]]; try apply ends_fit_nil.
      * apply ends_fit1. now right.
      * apply ends_fit1. exact Gy.
      * apply ends_fit2. split; [now right|exact Gx].
    + assert (N : forall P, ~ fits [(p_plates mu, []); (p_plates Lambda, []); (p_plates B, [D]); (p_plates S, [M - 1]); (p_plates v, [M - 1; D])] P).
      { intros P F. apply G. split.
        - assert (Fv : broadcasts_to (p_plates v) (P ++ [M - 1; D])) by (apply F; cbn; auto 10).
          apply split_broadcast in Fv as [_ E]. now apply ends_fit2 in E as [_ E].
        - assert (Fs : broadcasts_to (p_plates S) (P ++ [M - 1])) by (apply F; cbn; auto 10).
          apply split_broadcast in Fs as [_ E]. apply ends_fit1. exact E. }
      destruct (negb (x =? y) && negb (x =? 1) && negb (y =? 1)); [apply correct_err; [exact N|right; now left]|].
      destruct (chain_length_some (Nat.max x y) M _ eq_refl) as [-> | ->]; cbn [bind]; [|apply correct_err; [exact N|right; now left]].
      assert (G' : ~ (x = 1 \/ x = M - 1) \/ ~ (y = 1 \/ y = M - 1)) by lia. destruct G' as [G'|G'].
      * rewrite (time_bad (p_plates v) M G'). destruct (_ && _ && _); (apply correct_err; [exact N|now left]).
      * unfold y. rewrite (time0_bad (p_plates S) M G'). apply correct_err; [exact N|now left].
  - cbv zeta. fold x. rewrite !U. split.
    + intros H. unfold chain_length. apply Nat.eqb_neq in H. rewrite H, Nat.eqb_refl. reflexivity.
    + intros H. rewrite H. destruct (_ && _ && _); reflexivity.
Qed.

(** The dynamics B[Z] at each time; the plates of Z must be there. *)
Lemma switching_unfold : forall Z, is_gaussian B [D] -> 2 <= length (p_plates B) -> ax (p_plates B) 0 = D -> ax (p_plates B) 1 = K ->
  p_dims Z = [[K]] -> 1 <= length (p_plates Z) -> forall n given,
  switching_markov_chain mu Lambda B Z v n given =
    if negb (x =? ax (p_plates Z) 0) && negb (x =? 1) && negb (ax (p_plates Z) 0 =? 1) then Err PyException
    else M <- chain_length n (Nat.max x (ax (p_plates Z) 0)) ;;
      if negb (ax (p_plates Z) 0 =? M - 1) then Err ValueError
      else if (2 <=? length (p_plates v)) && negb (ax (p_plates v) 1 =? 1) && negb (ax (p_plates v) 1 =? M - 1) then Err ValueError
      else let l := fronts [(p_plates mu, []); (p_plates Lambda, []); (p_plates B, [K; D]); (p_plates Z, [M - 1]); (p_plates v, [M - 1; D])] in
        build given l l (chain_shape M D).
Proof.
  intros Z B_D B_axes B_0 B_1 Z_K Z_axes n g. unfold switching_markov_chain. fold x.
  destruct (Nat.ltb_spec (length (p_plates B)) 2); [lia|]. unfold dim00 at 1. rewrite Z_K. cbn [bind]. rewrite B_1, Nat.eqb_refl. cbn [negb].
  destruct (Nat.eqb_spec (length (p_plates Z)) 0); [lia|].
  destruct (negb (x =? ax (p_plates Z) 0) && _ && _); [reflexivity|].
  destruct (chain_length n (Nat.max x (ax (p_plates Z) 0))) as [M|e]; [|reflexivity]. cbn [bind]. unfold dim00.
  red in mu_D, Lambda_D, v_scalar, B_D. rewrite mu_D, Lambda_D, v_scalar, B_D. cbn [bind app].
  rewrite !dims_eqb_refl, B_0, v_D, !Nat.eqb_refl. cbn [negb orb].
  destruct (Nat.eqb_spec (length (p_plates v)) 0); [lia|]. cbn [orb].
  unfold fronts. cbn [map fst snd length]. rewrite !first_part_0. fold x. reflexivity.
Qed.
Theorem C63_switching : forall Z, is_gaussian B [D] -> 2 <= length (p_plates B) -> ax (p_plates B) 0 = D -> ax (p_plates B) 1 = K ->
  p_dims Z = [[K]] -> 1 <= length (p_plates Z) -> forall given,
  (forall M, 1 <= M -> ax (p_plates Z) 0 <> 1 \/ M = 2 -> correct [ValueError; PyException] given
     [(p_plates mu, []); (p_plates Lambda, []); (p_plates B, [K; D]); (p_plates Z, [M - 1]); (p_plates v, [M - 1; D])]
     (chain_shape M D) (switching_markov_chain mu Lambda B Z v (Some M) given)) /\
  (ax (p_plates Z) 0 <> 1 -> 0 < ax (p_plates Z) 0 -> ax (p_plates v) 1 = 1 \/ ax (p_plates v) 1 = ax (p_plates Z) 0 ->
   switching_markov_chain mu Lambda B Z v None given = switching_markov_chain mu Lambda B Z v (Some (ax (p_plates Z) 0 + 1)) given).
Proof.
  intros Z B_D B_axes B_0 B_1 Z_K Z_axes g. pose proof (switching_unfold Z B_D B_axes B_0 B_1 Z_K Z_axes) as U. split.
  - intros M HM HZ. rewrite U. set (y := ax (p_plates Z) 0) in *.
    assert (Dec : ((x = 1 \/ x = M - 1) /\ y = M - 1) \/ ~ ((x = 1 \/ x = M - 1) /\ y = M - 1)) by lia.
    destruct Dec as [[Gx Gy]|G].
    + destruct (chain_axes x y M HM Gx (or_intror Gy)) as [C1 C2]. rewrite C1, C2. cbn [bind]. rewrite (time_ok (p_plates v) M Gx).
      rewrite Gy at 1. rewrite Nat.eqb_refl. cbn [negb].
      apply (correct_weaken [ValueError]); [intros e [<-|[]]; now left|]. apply correct_build; [|auto].
      intros p e [[= <- <-]|[[= <- <-]|[[= <- <-]|[[= <- <-]|[[= <- <-]|[]]]]]]; try apply ends_fit_nil.
      * apply ends_fit2. split; now right.
      * apply ends_fit1. now right.
      * apply ends_fit2. split; [now right|exact Gx].
    + assert (N : forall P, ~ fits [(p_plates mu, []); (p_plates Lambda, []); (p_plates B, [K; D]); (p_plates Z, [M - 1]); (p_plates v, [M - 1; D])] P).
      { intros P F. apply G. split.
        - assert (Fv : broadcasts_to (p_plates v) (P ++ [M - 1; D])) by (apply F; cbn; auto 10).
          apply split_broadcast in Fv as [_ E]. now apply ends_fit2 in E as [_ E].
        - assert (Fs : broadcasts_to (p_plates Z) (P ++ [M - 1])) by (apply F; cbn; auto 10).
          apply split_broadcast in Fs as [_ E]. apply (proj1 (ends_fit1 _ _)) in E. fold y in E. lia. }
      destruct (negb (x =? y) && negb (x =? 1) && negb (y =? 1)); [apply correct_err; [exact N|right; now left]|].
      destruct (chain_length_some (Nat.max x y) M _ eq_refl) as [-> | ->]; cbn [bind]; [|apply correct_err; [exact N|right; now left]].
      assert (G' : ~ (x = 1 \/ x = M - 1) \/ y <> M - 1) by lia. destruct G' as [G'|G'].
      * rewrite (time_bad (p_plates v) M G'). destruct (negb (y =? M - 1)); (apply correct_err; [exact N|now left]).
      * apply Nat.eqb_neq in G'. rewrite G'. apply correct_err; [exact N|now left].
  - intros H1 H0 Hx. rewrite !U. fold x in Hx. set (y := ax (p_plates Z) 0) in *. replace (Nat.max x y) with y by lia.
    unfold chain_length. apply Nat.eqb_neq in H1. rewrite H1, Nat.eqb_refl. reflexivity.
Qed.
(** A chain whose Z has a plate axis of length one: refused for all lengths but two,
    although the plates of Z broadcast to those of the chain. *)
Theorem C63_switching_unit_refuted : forall Z, is_gaussian B [D] -> 2 <= length (p_plates B) -> ax (p_plates B) 0 = D -> ax (p_plates B) 1 = K ->
  p_dims Z = [[K]] -> 1 <= length (p_plates Z) -> ax (p_plates Z) 0 = 1 -> forall given M, M <> 2 ->
  exists e, switching_markov_chain mu Lambda B Z v (Some M) given = Err e.
Proof.
  intros Z B_D B_axes B_0 B_1 Z_K Z_axes E g M HM. rewrite (switching_unfold Z B_D B_axes B_0 B_1 Z_K Z_axes), E.
  destruct (_ && _ && _); [eauto|]. destruct (chain_length_some (Nat.max x 1) M _ eq_refl) as [-> | ->]; cbn [bind]; [|eauto].
  replace (1 =? M - 1) with false by (symmetry; apply Nat.eqb_neq; lia). cbn [negb]. eauto.
Qed.
End Varying.

(** Parents whose sizes do not agree. *)
Theorem C63_chain_mismatch : forall mu s0 D Lambda t A s1 nu n inputs Di given,
  is_gaussian mu s0 -> 1 <= length s0 -> last_part 1 s0 = [D] -> is_wishart Lambda t ->
  is_gaussian A s1 -> 1 <= length s1 -> match inputs with None => Di = 0 | Some i => exists s, is_gaussian i (Di :: s) end ->
  t <> [D] \/ last_part 1 s1 <> [D + Di] \/
    (forall Q, numpy_broadcast [seen A s1 1; p_plates nu] Q -> length Q = 0 \/ ax Q 0 <> D) \/
    (exists i k s, inputs = Some i /\ is_gaussian i (Di :: k :: s)) ->
  exists e, gaussian_markov_chain mu Lambda A nu n inputs given = Err e.
Proof.
  intros mu s0 D Lambda t A s1 nu n inputs Di g Em Lm Dm Et EA LA Ei H. unfold gaussian_markov_chain.
  destruct (list_eq_dec Nat.eq_dec t [D]) as [->|Nt].
  2:{ rewrite (wrap_gw_err 1 mu s0 Lambda t Em Et); [cbn [bind]; eauto|]. right. now rewrite Dm. }
  destruct H as [H|H]; [contradiction|].
  rewrite (wrap_gw_eq 1 mu s0 Lambda Em Lm) by (rewrite Dm; exact Et). rewrite Dm, (wrap_gg_eq 1 A s1 nu EA LA).
  destruct (pair_cases (seen mu s0 1) (p_plates Lambda)) as [(W & -> & _)|[-> _]]; cbn [bind]; [|eauto].
  destruct (pair_cases (seen A s1 1) (p_plates nu)) as [(Q & -> & B)|[-> _]]; cbn [bind]; [|eauto].
  cbn [dim00 p_dims p_plates app bind].
  assert (Dq : match inputs with None => Ok 0 | Some i => dim00 i end = Ok Di).
  { destruct inputs as [i|]; [|now rewrite Ei]. destruct Ei as [s Ei]. unfold dim00. now rewrite Ei. }
  rewrite Dq. cbn [bind]. destruct (_ && _ && _); [eauto|]. destruct (chain_length _ _) as [M|e]; cbn [bind]; [|eauto].
  rewrite dims_eqb_refl. cbn [negb].
  destruct (list_eq_dec Nat.eq_dec (last_part 1 s1) [D + Di]) as [Q1|N1].
  2:{ rewrite dims_eqb_neq by congruence. cbn [negb]. eauto. }
  destruct H as [H|H]; [contradiction|]. rewrite Q1. cbn [app]. rewrite dims_eqb_refl. cbn [negb].
  destruct ((length Q =? 0) || negb (ax Q 0 =? D)) eqn:C; [eauto|]. apply orb_false_iff in C as [C1 C2]. apply Nat.eqb_neq in C1.
  apply negb_false_iff, Nat.eqb_eq in C2. destruct H as [H|(i & k & s & -> & E)]; [destruct (H Q B); contradiction|].
  destruct (_ && _ && _); [eauto|]. rewrite E, dims_eqb_neq by congruence. cbn [negb]. eauto.
Qed.
Theorem C63_varying_mismatch : forall mu Lambda B S v D t D' K s n given,
  is_gaussian mu [D] -> is_wishart Lambda t -> is_gaussian B [D'; K] -> is_gaussian S s -> is_scalar v ->
  t <> [D] \/ D' <> D \/ s <> [K] \/ p_plates B = [] \/ ax (p_plates B) 0 <> D \/ p_plates v = [] \/ ax (p_plates v) 0 <> D ->
  exists e, varying_markov_chain mu Lambda B S v n given = Err e.
Proof.
  intros mu Lambda B S v D t D' K s n g Em EL EB ES Ev H. unfold varying_markov_chain.
  destruct (_ && _ && _); [eauto|]. destruct (chain_length _ _) as [M|e]; cbn [bind]; [|eauto].
  red in Em, EL, EB, ES, Ev. unfold dim00, dim0. rewrite Em, EB. cbn [bind app]. rewrite dims_eqb_refl. cbn [negb].
  destruct (list_eq_dec Nat.eq_dec t [D]) as [->|Nt].
  2:{ rewrite EL, dims_eqb_neq; [cbn [negb]; eauto|]. intros [= Q]. apply Nt. now apply double_inj. }
  rewrite EL. cbn [app]. rewrite dims_eqb_refl. cbn [negb]. change (ax [D'; K] 0) with K.
  destruct (Nat.eq_dec D' D) as [->|N]; [|rewrite dims_eqb_neq by congruence; cbn [negb]; eauto].
  rewrite dims_eqb_refl. cbn [negb].
  destruct (Nat.eqb_spec (length (p_plates B)) 0) as [C1|C1]; cbn [orb]; [eauto|].
  destruct (Nat.eqb_spec (ax (p_plates B) 0) D) as [C2|C2]; cbn [negb]; [|eauto].
  destruct (list_eq_dec Nat.eq_dec s [K]) as [->|Ns].
  2:{ rewrite ES, dims_eqb_neq by congruence. cbn [negb]. eauto. }
  rewrite ES. cbn [app]. rewrite dims_eqb_refl. cbn [negb].
  destruct (_ && _ && _); [eauto|]. rewrite Ev, dims_eqb_refl. cbn [negb].
  destruct (Nat.eqb_spec (length (p_plates v)) 0) as [C3|C3]; cbn [orb]; [eauto|].
  destruct (Nat.eqb_spec (ax (p_plates v) 0) D) as [C4|C4]; cbn [negb]; [|eauto].
  exfalso. destruct H as [H|[H|[H|[H|[H|[H|H]]]]]]; try contradiction; rewrite H in *; cbn in *; lia.
Qed.
Theorem C63_switching_mismatch : forall mu Lambda B Z v D t D' K n given,
  is_gaussian mu [D] -> is_wishart Lambda t -> is_gaussian B [D'] -> p_dims Z = [[K]] -> is_scalar v ->
  t <> [D] \/ D' <> D \/ length (p_plates B) < 2 \/ ax (p_plates B) 1 <> K \/ ax (p_plates B) 0 <> D \/
    p_plates Z = [] \/ p_plates v = [] \/ ax (p_plates v) 0 <> D ->
  exists e, switching_markov_chain mu Lambda B Z v n given = Err e.
Proof.
  intros mu Lambda B Z v D t D' K n g Em EL EB EZ Ev H. unfold switching_markov_chain.
  destruct (Nat.ltb_spec (length (p_plates B)) 2) as [C0|C0]; [eauto|]. unfold dim00 at 1. rewrite EZ. cbn [bind].
  destruct (Nat.eqb_spec K (ax (p_plates B) 1)) as [C1|C1]; cbn [negb]; [|eauto].
  destruct (Nat.eqb_spec (length (p_plates Z)) 0) as [C2|C2]; [eauto|].
  destruct (_ && _ && _); [eauto|]. destruct (chain_length _ _) as [M|e]; cbn [bind]; [|eauto].
  red in Em, EL, EB, Ev. unfold dim00, dim0. rewrite Em, EB. cbn [bind app]. rewrite dims_eqb_refl. cbn [negb].
  destruct (list_eq_dec Nat.eq_dec t [D]) as [->|Nt].
  2:{ rewrite EL, dims_eqb_neq; [cbn [negb]; eauto|]. intros [= Q]. apply Nt. now apply double_inj. }
  rewrite EL. cbn [app]. rewrite dims_eqb_refl. cbn [negb].
  destruct (Nat.eq_dec D' D) as [->|N]; [|rewrite dims_eqb_neq by congruence; cbn [negb]; eauto].
  rewrite dims_eqb_refl. cbn [negb]. rewrite <- C1, Nat.eqb_refl. cbn [negb orb].
  destruct (Nat.eqb_spec (ax (p_plates B) 0) D) as [C3|C3]; cbn [negb]; [|eauto]. rewrite dims_eqb_refl. cbn [negb].
  destruct (negb _); [eauto|]. rewrite Ev, dims_eqb_refl. cbn [negb].
  destruct (Nat.eqb_spec (length (p_plates v)) 0) as [C4|C4]; cbn [orb]; [eauto|].
  destruct (Nat.eqb_spec (ax (p_plates v) 0) D) as [C5|C5]; cbn [negb]; [|eauto].
  exfalso. destruct H as [H|[H|[H|[H|[H|[H|[H|H]]]]]]]; try contradiction; try lia; rewrite H in *; cbn in *; lia.
Qed.
(** Refusals of a wrong [a], [b] or [n]. *)
Theorem C63_scalar_mismatch : forall mu Lambda a b nd given alpha n V,
  (p_dims a <> [[]; []] \/ p_dims b <> [[]; []] -> exists e, gaussian_gamma mu Lambda a b nd given = Err e) /\
  (p_dims n <> [[]; []] -> exists e, gaussian_wishart mu alpha n V given = Err e).
Proof.
  intros mu Lambda a b nd g alpha n V. split.
  - intros H. unfold gaussian_gamma. destruct (wrap_gaussian_wishart nd mu Lambda) as [w|e]; cbn [bind]; [|eauto].
    destruct (dim0 w) as [s|e]; cbn [bind]; [|eauto]. destruct (negb _); [eauto|].
    destruct (list_eq_dec (list_eq_dec Nat.eq_dec) (p_dims a) [[]; []]) as [Q|N]; [|rewrite dims_eqb_neq by exact N; cbn [negb]; eauto].
    destruct H as [H|H]; [contradiction|]. rewrite Q, dims_eqb_refl, dims_eqb_neq by exact H. cbn [negb]. eauto.
  - intros H. unfold gaussian_wishart. destruct (wrap_gaussian_gamma 1 mu alpha) as [w|e]; cbn [bind]; [|eauto].
    destruct (dim00 w) as [s|e]; cbn [bind]; [|eauto]. destruct (negb _); [eauto|]. destruct (negb _); [eauto|].
    rewrite dims_eqb_neq by exact H. cbn [negb]. eauto.
Qed.

(** ** Mixtures *)
Lemma ax_insert_at : forall s c K k, c <= length s ->
  ax (with_axis c K s) k = if k <? c then ax s k else if k =? c then K else ax s (k - 1).
Proof.
  intros s c K k H. unfold with_axis.
  assert (L : length (skipn (length s - c) s) = c) by (rewrite skipn_length; lia).
  assert (A : forall j, ax s j = if j <? c then ax (skipn (length s - c) s) j else ax (firstn (length s - c) s) (j - c)).
  { intros j. rewrite <- (firstn_skipn (length s - c) s) at 1. rewrite ax_app, L. reflexivity. }
  change (K :: skipn (length s - c) s) with ([K] ++ skipn (length s - c) s). rewrite !ax_app, app_length, L. cbn [length].
  destruct (Nat.ltb_spec k (1 + c)) as [C|C].
  - destruct (Nat.ltb_spec k c) as [D|D].
    + rewrite A. apply Nat.ltb_lt in D. now rewrite D.
    + replace (k =? c) with true by (symmetry; apply Nat.eqb_eq; lia). replace (k - c) with 0 by lia. reflexivity.
  - destruct (Nat.ltb_spec k c); [lia|]. destruct (Nat.eqb_spec k c); [lia|]. rewrite A.
    destruct (Nat.ltb_spec (k - 1) c); [lia|]. f_equal. lia.
Qed.
Lemma with_axis_length : forall c K s, length (with_axis c K s) = S (length s).
Proof. intros c K s. unfold with_axis. rewrite app_length. cbn [length]. rewrite firstn_length, skipn_length. lia. Qed.
Section MixtureNode.
Variables (z : par) (parents : list (shape * shape)) (dims : list shape) (c K : nat) (B : shape).
Hypothesis tails : forall p e, In (p, e) parents -> ends_fit p e.
Hypothesis together : numpy_broadcast (fronts parents) B.
Hypothesis z_K : is_vector z K.
Let plain := map (fun q : shape * shape => (fst q, length (snd q))) parents.
Lemma plain_fronts : map (fun q : shape * nat => first_part (snd q) (fst q)) plain = fronts parents.
Proof. unfold plain, fronts. now rewrite map_map. Qed.
Lemma mixed_ok : build None (fronts parents) (fronts parents) dims = Ok (B, dims).
Proof. unfold build. rewrite total_plates_none. apply broadcasted_shape_ok in together. now rewrite together. Qed.

Lemma mixture_fits_iff : forall rest P, c < length B -> ax B c = K -> py_pop c B = Ok rest ->
  fits [(rest, []); (p_plates z, [])] P <-> mixture_fits c K (p_plates z) parents P.
Proof.
  intros rest P L E R. destruct (ax_pop B c L) as (t & Ht & Lt & At). rewrite R in Ht. injection Ht as <-.
  assert (F : fits [(rest, []); (p_plates z, [])] P <-> broadcasts_to rest P /\ broadcasts_to (p_plates z) P).
  { unfold fits. split.
    - intros H. split; [specialize (H rest [] ltac:(now left))|specialize (H (p_plates z) [] ltac:(right; now left))]; now rewrite app_nil_r in H.
    - intros [H1 H2] p e [[= <- <-]|[[= <- <-]|[]]]; now rewrite app_nil_r. }
  rewrite F. unfold mixture_fits.
  assert (G : forall P, c <= length P -> (forall p e, In (p, e) parents -> broadcasts_to p (with_axis c K P ++ e)) <-> broadcasts_to B (with_axis c K P)).
  { intros Q HQ. pose proof (fits_fronts parents tails (with_axis c K Q)) as W. unfold fits in W. rewrite W. split.
    - intros H. now apply (broadcast_least _ _ _ together).
    - intros H q Hq. apply (broadcasts_to_trans _ B); [now apply (broadcast_upper _ _ _ together)|exact H]. }
  split.
  - intros [[H1 H2] Hz]. assert (HP : c <= length P) by lia. split; [exact HP|]. split; [exact Hz|]. apply G; [exact HP|].
    split; [rewrite with_axis_length; lia|]. intros k. rewrite (ax_insert_at _ _ _ _ HP).
    destruct (Nat.ltb_spec k c) as [C|C].
    + specialize (H2 k). rewrite At in H2. apply Nat.ltb_lt in C. now rewrite C in H2.
    + destruct (Nat.eqb_spec k c) as [->|N]; [now right|]. specialize (H2 (k - 1)). rewrite At in H2.
      destruct (Nat.ltb_spec (k - 1) c); [lia|]. now replace (S (k - 1)) with k in H2 by lia.
  - intros (HP & Hz & H). apply G in H; [|exact HP]. destruct H as [H1 H2]. rewrite with_axis_length in H1. split; [|exact Hz].
    split; [lia|]. intros k. rewrite At. destruct (Nat.ltb_spec k c) as [C|C].
    + specialize (H2 k). rewrite (ax_insert_at _ _ _ _ HP) in H2. apply Nat.ltb_lt in C. now rewrite C in H2.
    + specialize (H2 (S k)). rewrite (ax_insert_at _ _ _ _ HP) in H2. destruct (Nat.ltb_spec (S k) c); [lia|].
      destruct (Nat.eqb_spec (S k) c); [lia|]. cbn [Nat.sub] in H2. now rewrite Nat.sub_0_r in H2.
Qed.
Lemma pop_below : forall q rest, c < length B -> py_pop c B = Ok rest -> broadcasts_to q B ->
  exists t, pop_plate c q = Ok t /\ broadcasts_to t rest.
Proof.
  intros q rest L R [H1 H2]. destruct (ax_pop B c L) as (u & Hu & Lu & Au). rewrite R in Hu. injection Hu as <-.
  unfold pop_plate. destruct (Nat.leb_spec (c + 1) (length q)) as [C|C].
  - destruct (ax_pop q c ltac:(lia)) as (t & -> & Lt & At). exists t. split; [reflexivity|]. split; [lia|]. intros k. rewrite At, Au. destruct (k <? c); apply H2.
  - exists q. split; [reflexivity|]. split; [lia|]. intros k. rewrite Au. destruct (Nat.ltb_spec k c); [apply H2|]. left. apply ax_overflow. lia.
Qed.
Lemma popped_below : forall rest, c < length B -> py_pop c B = Ok rest -> exists popped,
  mapM (pop_plate c) (fronts parents) = Ok popped /\ forall t, In t popped -> broadcasts_to t rest.
Proof.
  intros rest L R.
  assert (X : forall l, (forall q, In q l -> broadcasts_to q B) -> exists popped, mapM (pop_plate c) l = Ok popped /\ forall t, In t popped -> broadcasts_to t rest).
  { induction l as [|q l IH]; intros H; [exists []; split; [reflexivity|intros t []]|].
    destruct (pop_below q rest L R (H q (or_introl eq_refl))) as (t & Ht & Bt). destruct IH as (ts & Hts & Bts); [intros q' Hq; apply H; now right|].
    exists (t :: ts). cbn [mapM]. rewrite Ht. cbn [bind]. rewrite Hts. cbn [bind]. split; [reflexivity|]. intros t' [<-|H']; auto. }
  apply X. intros q Hq. now apply (broadcast_upper _ _ _ together).
Qed.
(** A mixture over the plate axis -1-c, for K clusters. *)
Theorem C63_mixture : c < length B -> ax B c = K -> forall given,
  match given with
  | Some P => (mixture_fits c K (p_plates z) parents P -> mixture z plain dims c given = Ok (P, dims)) /\
              (~ mixture_fits c K (p_plates z) parents P -> mixture z plain dims c given = Err ValueError)
  | None => (forall P, mixture_fits c K (p_plates z) parents P ->
               (forall T, mixture_fits c K (p_plates z) parents T -> broadcasts_to P T) ->
               mixture z plain dims c given = Ok (P, dims)) /\
            ((forall P, ~ mixture_fits c K (p_plates z) parents P) -> mixture z plain dims c given = Err ValueError)
  end.
Proof.
  intros L E g. destruct (ax_pop B c L) as (rest & R & Lr & Ar).
  assert (C : correct [ValueError] g [(rest, []); (p_plates z, [])] dims (mixture z plain dims c g)).
  { unfold mixture. rewrite plain_fronts, mixed_ok. cbn [bind fst]. destruct (Nat.ltb_spec (length B) (c + 1)); [lia|].
    rewrite R. cbn [bind]. destruct z_K as [ds Hz]. unfold dim00. rewrite Hz. cbn [bind]. rewrite E, Nat.eqb_refl. cbn [negb].
    destruct (popped_below rest L R) as (popped & -> & Hp). cbn [bind].
    assert (Fr : fronts [(rest, []); (p_plates z, [])] = [rest; p_plates z]) by (unfold fronts; cbn [map fst snd length]; now rewrite !first_part_0).
    rewrite <- Fr. apply correct_build.
    - intros p e [[= <- <-]|[[= <- <-]|[]]]; apply ends_fit_nil.
    - intros q P Hq HH. rewrite Fr in HH. destruct Hq as [<-|Hq]; [apply HH; right; now left|].
      apply (broadcasts_to_trans _ rest); [now apply Hp|]. apply HH. now left. }
  pose proof (fun P => mixture_fits_iff rest P L E R) as W. unfold correct in C. destruct g as [P|]; destruct C as [C1 C2]; split.
  - intros F. now apply C1, W.
  - intros F. destruct C2 as (e & [<-|[]] & ->); [|reflexivity]. now rewrite W.
  - intros P F H. apply C1. split; [now apply W|]. intros T FT. now apply H, W.
  - intros F. destruct C2 as (e & [<-|[]] & ->); [|reflexivity]. intros P. rewrite W. apply F.
Qed.
Theorem C63_mixture_mismatch : length B <= c \/ ax B c <> K -> forall given, mixture z plain dims c given = Err ValueError.
Proof.
  intros H g. unfold mixture. rewrite plain_fronts, mixed_ok. cbn [bind fst]. destruct (Nat.ltb_spec (length B) (c + 1)) as [C|C]; [reflexivity|].
  destruct (ax_pop B c ltac:(lia)) as (rest & -> & _). cbn [bind]. destruct z_K as [ds Hz]. unfold dim00. rewrite Hz. cbn [bind].
  destruct (Nat.eqb_spec K (ax B c)); [lia|reflexivity].
Qed.
End MixtureNode.

(** ** Examples *)
Definition ex_mu := Par [] [[2]; [2; 2]].
Definition ex_Lambda := Par [5; 1] [[2; 2]; []].
(** Plates of the parents are combined, and given plates can be larger. *)
Example ex_gamma : gamma_node (Par [3; 1] [[]; []]) (Par [4] [[]; []]) None = Ok ([3; 4], [[]; []]) /\
  gamma_node (Par [3; 1] [[]; []]) (Par [4] [[]; []]) (Some [7; 3; 4]) = Ok ([7; 3; 4], [[]; []]) /\
  gamma_node (Par [3; 1] [[]; []]) (Par [4] [[]; []]) (Some [4]) = Err ValueError /\
  least [([3; 1], []); ([4], [])] [3; 4].
Proof.
  repeat split; try reflexivity.
  - destruct H as [[= <- <-]|[[= <- <-]|[]]]; cbn; lia.
  - intros [|[|[|k]]]; destruct H as [[= <- <-]|[[= <- <-]|[]]]; cbn; auto.
  - specialize (H [3; 1] [] ltac:(now left)). destruct H as [H _]. rewrite app_nil_r in H. exact H.
  - intros [|[|k]]; [specialize (H [4] [] ltac:(right; now left))|specialize (H [3; 1] [] ltac:(now left))|left; now destruct k];
      destruct H as [_ H]; rewrite app_nil_r in H; [apply (H 0)|apply (H 1)].
Qed.
(** GaussianARD(mu, alpha, shape=(2,)) with mu of plates (6, 1) and alpha of plates (2). *)
Example ex_ard : gaussian_ard (Par [6; 1] [[]; []]) (Par [2] [[]; []]) None (Some [2]) None = Ok ([6], [[2]; [2; 2]]) /\
  gaussian_ard (Par [6; 1] [[]; []]) (Par [2] [[]; []]) (Some 1) None None = Ok ([6], [[2]; [2; 2]]) /\
  is_gaussian (Par [6; 1] [[]; []]) [] /\ ends_fit [6; 1] [2] /\ ends_fit [2] [2].
Proof. repeat split; try reflexivity; intros [|k] Hk; cbn in *; lia. Qed.
(** GaussianARD(mu, 1, shape=(2,)) with mu of plates (3): a node without plates. *)
Example ex_ard_refuted : gaussian_ard (Par [3] [[]; []]) (Par [] [[]; []]) None (Some [2]) None = Ok ([], [[2]; [2; 2]]) /\
  ~ ends_fit [3] [2].
Proof. split; [reflexivity|]. intros H. specialize (H 0 ltac:(cbn; lia)). cbn in H. lia. Qed.
(** Gaussian(mu, Lambda) with a mu that has plates in its moments. *)
Example ex_gaussian : gaussian (Par [] [[4; 2]; [4; 2; 4; 2]]) ex_Lambda 1 None = Ok ([5; 4], [[2]; [2; 2]]) /\
  is_gaussian (Par [] [[4; 2]; [4; 2; 4; 2]]) [4; 2] /\ is_wishart ex_Lambda (last_part 1 [4; 2]).
Proof. repeat split; reflexivity. Qed.
Example ex_categorical_chain :
  categorical_markov_chain (Par [7; 1] [[3]]) (Par [4; 5; 3] [[3]]) None None = Ok ([7; 4], [[3]; [5; 3; 3]]) /\
  categorical_markov_chain (Par [7; 1] [[3]]) (Par [4; 5; 3] [[3]]) (Some 8) None = Err ValueError /\
  categorical_markov_chain (Par [7; 1] [[3]]) (Par [3] [[3]]) (Some 8) None = Ok ([7; 1], [[3]; [7; 3; 3]]).
Proof. repeat split; reflexivity. Qed.
Example ex_chain : gaussian_markov_chain ex_mu ex_Lambda (Par [6; 3; 2] [[2]; [2; 2]]) (Par [2] [[]; []]) None None None
    = Ok ([5; 6], chain_shape 4 2) /\
  is_gaussian ex_mu [2] /\ is_wishart ex_Lambda [2] /\ numpy_broadcast [[6; 3; 2]; [2]] [6; 3; 2] /\ inputs_ok 0 None.
Proof. split; [reflexivity|]. split; [reflexivity|]. split; [reflexivity|]. split; [apply broadcasted_shape_ok|]; reflexivity. Qed.
(** A chain of length four with inputs of plates (5, 3): the node has no plates, and the
    inputs, which count as its parent, do not broadcast to them; given the plates (5) the
    node is as it should be. *)
Definition ex_inputs := Par [5; 3] [[1]; [1; 1]].
Example ex_inputs_refuted :
  gaussian_markov_chain ex_mu (Par [] [[2; 2]; []]) (Par [2] [[3]; [3; 3]]) (Par [2] [[]; []]) (Some 4) (Some ex_inputs) None
    = Ok ([], chain_shape 4 2) /\
  gaussian_markov_chain ex_mu (Par [] [[2; 2]; []]) (Par [2] [[3]; [3; 3]]) (Par [2] [[]; []]) (Some 4) (Some ex_inputs) (Some [5])
    = Ok ([5], chain_shape 4 2) /\
  inputs_ok 1 (Some ex_inputs) /\ numpy_broadcast [[2]; [2]] [2] /\
  fits (chain_parents ex_mu (Par [] [[2; 2]; []]) (Par [2] [[3]; [3; 3]]) (Par [2] [[]; []]) [2] [3] 2 (Some ex_inputs) 4) [5] /\
  ~ broadcasts_to [5; 3] ([] ++ [3]).
Proof.
  split; [reflexivity|]. split; [reflexivity|]. split; [split; [reflexivity|cbn; lia]|].
  split; [apply broadcasted_shape_ok; reflexivity|]. split.
  - intros p e [[= <- <-]|[[= <- <-]|[[= <- <-]|[[= <- <-]|[[= <- <-]|[]]]]]]; (split; [cbn; lia|]); intros [|[|[|[|k]]]]; cbn; auto.
  - intros [H _]. cbn in H. lia.
Qed.
Example ex_varying : varying_markov_chain ex_mu ex_Lambda (Par [6; 2] [[2; 3]; [2; 3; 2; 3]]) (Par [3] [[3]; [3; 3]])
    (Par [2] [[]; []]) None None = Ok ([5; 6], chain_shape 4 2).
Proof. reflexivity. Qed.
Example ex_switching :
  switching_markov_chain ex_mu ex_Lambda (Par [6; 4; 2] [[2]; [2; 2]]) (Par [3] [[4]]) (Par [2] [[]; []]) None None
    = Ok ([5; 6], chain_shape 4 2) /\
  switching_markov_chain ex_mu ex_Lambda (Par [6; 4; 2] [[2]; [2; 2]]) (Par [1] [[4]]) (Par [2] [[]; []]) (Some 4) None
    = Err ValueError.
Proof. split; reflexivity. Qed.
(** Mixture(z, Gaussian, mu, Lambda) with 10 plates and 3 clusters. *)
Example ex_mixture : mixture (Par [10] [[3]]) [([3], 0); ([1], 0)] [[2]; [2; 2]] 0 None = Ok ([10], [[2]; [2; 2]]) /\
  numpy_broadcast (fronts [([3], []); ([1], [])]) [3] /\ is_vector (Par [10] [[3]]) 3 /\
  mixture_fits 0 3 [10] [([3], []); ([1], [])] [10].
Proof.
  split; [reflexivity|]. split; [apply broadcasted_shape_ok; reflexivity|]. split; [now exists []|]. split; [cbn; lia|].
  split; [apply broadcasts_to_refl|]. intros p e [[= <- <-]|[[= <- <-]|[]]]; (split; [cbn; lia|]); intros [|[|k]]; cbn; auto.
Qed.
Print Assumptions C63_least_exists.
Print Assumptions C63_least_unique.
Print Assumptions C63_plain.
Print Assumptions C63_beta.
Print Assumptions C63_counts.
Print Assumptions C63_ard_scalar.
Print Assumptions C63_ard_shape.
Print Assumptions C63_ard_inconsistent.
Print Assumptions C63_ard_ndim.
Print Assumptions C63_ard_clash.
Print Assumptions C63_ard_shape_refuted.
Print Assumptions C63_gaussian.
Print Assumptions C63_gaussian_mismatch.
Print Assumptions C63_wishart.
Print Assumptions C63_gaussian_wishart.
Print Assumptions C63_categorical_markov_chain.
Print Assumptions C63_categorical_markov_chain_square.
Print Assumptions C63_gaussian_markov_chain.
Print Assumptions C63_chain_length.
Print Assumptions C63_inputs_refuted.
Print Assumptions C63_varying.
Print Assumptions C63_switching.
Print Assumptions C63_switching_unit_refuted.
Print Assumptions C63_mixture.
Print Assumptions C63_mixture_mismatch.
Print Assumptions C63_chain_mismatch.
Print Assumptions C63_varying_mismatch.
Print Assumptions C63_switching_mismatch.
Print Assumptions C63_scalar_mismatch.
