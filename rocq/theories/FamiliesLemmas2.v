(** Tangent (Gibbs) inequalities and derivatives of the families. *)
From Coq Require Import List Arith ZArith Lia Bool Reals Lra.
From Verif Require Import Base NumPy TensorLemmas Families SpecFamilies FamiliesLemmas.
Import ListNotations.
Open Scope R_scope.

Lemma jensen_exp : forall K (w d : vec), (forall i, (i < K)%nat -> 0 <= w i) -> rsum K w = 1 ->
  exp (dotv K w d) <= rsum K (fun i => w i * exp (d i)).
Proof.
  intros K w d Hw H1. set (c := dotv K w d).
  replace (exp c) with (rsum K (fun i => w i * (exp c + (d i - c) * exp c))).
  - apply rsum_le. intros i Hi. pose proof (exp_tangent c (d i)). specialize (Hw i Hi). nra.
  - rewrite (rsum_ext K _ (fun i => w i * (exp c - c * exp c) + (w i * d i) * exp c)) by (intros; ring).
    rewrite rsum_plus, !rsum_scal_r, H1. change (rsum K (fun x => w x * d x)) with c. ring.
Qed.

Lemma softmax_gibbs : forall N K phi phi', 0 <= N -> (0 < K)%nat ->
  N * ln (sumexp K phi') >= N * ln (sumexp K phi) +
    rsum K (fun i => (phi' i - phi i) * (N * (exp (phi i) / sumexp K phi))).
Proof.
  intros N K phi phi' HN HK. set (w := fun i => exp (phi i) / sumexp K phi).
  pose proof (sumexp_pos K phi HK) as P. pose proof (sumexp_pos K phi' HK) as P'.
  assert (W : rsum K w = 1).
  { unfold w, Rdiv. rewrite rsum_scal_r. change (rsum K (fun x => exp (phi x))) with (sumexp K phi). field. lra. }
  pose proof (jensen_exp K w (fun i => phi' i - phi i)) as J.
  assert (E : rsum K (fun i => w i * exp (phi' i - phi i)) = sumexp K phi' / sumexp K phi).
  { unfold sumexp at 1, Rdiv. rewrite <- rsum_scal_r. apply rsum_ext. intros i _. unfold w, Rdiv.
    replace (phi' i) with (phi i + (phi' i - phi i)) at 2 by ring. rewrite exp_plus. ring. }
  cbv beta in J. rewrite E in J. assert (J1 : dotv K w (fun i => phi' i - phi i) <= ln (sumexp K phi' / sumexp K phi)).
  { rewrite <- (ln_exp (dotv _ _ _)). destruct (J) as [L|L].
    - intros i _. unfold w. left. apply Rdiv_lt_0_compat; [apply exp_pos|exact P].
    - exact W.
    - left. apply ln_increasing; [apply exp_pos|exact L].
    - right. now rewrite L. }
  rewrite ln_div in J1 by assumption.
  rewrite (rsum_ext K _ (fun i => N * (w i * (phi' i - phi i)))) by (intros; unfold w; ring).
  rewrite rsum_scal. change (rsum K (fun x => w x * (phi' x - phi x))) with (dotv K w (fun i => phi' i - phi i)).
  nra.
Qed.

Lemma binomial_gibbs : forall N phi phi', 0 <= N ->
  N * ln (1 + exp phi') >= N * ln (1 + exp phi) + (phi' - phi) * (N / (1 + exp (- phi))).
Proof.
  intros N phi phi' HN.
  pose proof (softmax_gibbs N 2 (fun i => match i with O => phi | _ => 0 end)
                (fun i => match i with O => phi' | _ => 0 end) HN ltac:(lia)) as H.
  unfold sumexp in H. cbn [rsum] in H. rewrite exp_0 in H.
  replace (0 + exp phi' + 1) with (1 + exp phi') in H by ring.
  replace (0 + exp phi + 1) with (1 + exp phi) in H by ring.
  replace (N / (1 + exp (- phi))) with (N * (exp phi / (1 + exp phi))); [lra|].
  rewrite exp_Ropp. pose proof (exp_pos phi). field. split; lra.
Qed.

Lemma gamma_gibbs : forall lg psi a b a' b', gamma_convex lg psi -> 0 < a -> 0 < b -> 0 < a' -> 0 < b' ->
  lg a' - a' * ln b' >= lg a - a * ln b + (- b' - - b) * (a / b) + (a' - a) * (psi a - ln b).
Proof.
  intros lg psi a b a' b' H Ha Hb Ha' Hb'. specialize (H a a' Ha Ha').
  assert (P1 : 0 < a * b') by now apply Rmult_lt_0_compat.
  assert (P2 : 0 < a' * b) by now apply Rmult_lt_0_compat.
  assert (Pr : 0 < (a * b') / (a' * b)) by now apply Rdiv_lt_0_compat.
  pose proof (ln_tangent _ Pr) as T. rewrite ln_div, !ln_mult in T by assumption.
  assert (T2 : a' * (ln a + ln b' - (ln a' + ln b)) <= a' * (a * b' / (a' * b) - 1)).
  { apply Rmult_le_compat_l; lra. }
  replace (a' * (a * b' / (a' * b) - 1)) with (b' * (a / b) - a') in T2 by (field; lra).
  replace ((- b' - - b) * (a / b)) with (a - b' * (a / b)) by (field; lra). lra.
Qed.

Lemma dirichlet_gibbs : forall lg psi, log_beta_convex lg psi -> forall K al al', (0 < K)%nat ->
  (forall i, (i < K)%nat -> 0 < al i) -> (forall i, (i < K)%nat -> 0 < al' i) ->
  rsum K (fun i => lg (al' i)) - lg (rsum K al') >=
  rsum K (fun i => lg (al i)) - lg (rsum K al) +
    rsum K (fun i => (al' i - al i) * (psi (al i) - psi (rsum K al))).
Proof.
  intros lg psi H K. induction K as [|K IH]; intros al al' HK Ha Ha'; [lia|].
  destruct (Nat.eq_dec K 0) as [->|N].
  - cbn. rewrite !Rplus_0_l. lra.
  - specialize (IH al al' ltac:(lia) ltac:(intros; apply Ha; lia) ltac:(intros; apply Ha'; lia)).
    assert (PS : 0 < rsum K al) by (apply rsum_pos; [lia|intros; apply Ha; lia]).
    assert (PS' : 0 < rsum K al') by (apply rsum_pos; [lia|intros; apply Ha'; lia]).
    specialize (H (rsum K al) (al K) (rsum K al') (al' K) PS (Ha K ltac:(lia)) PS' (Ha' K ltac:(lia))).
    cbn [rsum]. set (S := rsum K al) in *. set (S' := rsum K al') in *.
    rewrite (rsum_ext K (fun i => (al' i - al i) * (psi (al i) - psi (S + al K)))
      (fun i => (al' i - al i) * (psi (al i) - psi S) + (al' i - al i) * (psi S - psi (S + al K)))) by (intros; ring).
    rewrite rsum_plus, rsum_scal_r, rsum_minus. fold S S'. lra.
Qed.

(** Derivatives. *)
Lemma d_exp : forall x, derivable_pt_lim exp x (exp x).
Proof. exact derivable_pt_lim_exp. Qed.

Lemma d_ln : forall x, 0 < x -> derivable_pt_lim ln x (/ x).
Proof. exact derivable_pt_lim_ln. Qed.

Lemma d_scal : forall c f x l, derivable_pt_lim f x l -> derivable_pt_lim (fun t => c * f t) x (c * l).
Proof. intros. now apply derivable_pt_lim_scal. Qed.
Lemma d_plus : forall f g x l m, derivable_pt_lim f x l -> derivable_pt_lim g x m ->
  derivable_pt_lim (fun t => f t + g t) x (l + m).
Proof. intros. now apply derivable_pt_lim_plus. Qed.
Lemma d_minus : forall f g x l m, derivable_pt_lim f x l -> derivable_pt_lim g x m ->
  derivable_pt_lim (fun t => f t - g t) x (l - m).
Proof. intros. now apply derivable_pt_lim_minus. Qed.
Lemma d_const : forall c x, derivable_pt_lim (fun _ => c) x 0.
Proof. intros. apply derivable_pt_lim_const. Qed.
Lemma d_id : forall x, derivable_pt_lim (fun t => t) x 1.
Proof. intros. apply derivable_pt_lim_id. Qed.
Lemma d_comp : forall f g x l m, derivable_pt_lim f x l -> derivable_pt_lim g (f x) m ->
  derivable_pt_lim (fun t => g (f t)) x (m * l).
Proof. intros. now apply (derivable_pt_lim_comp f g). Qed.
Lemma d_opp : forall f x l, derivable_pt_lim f x l -> derivable_pt_lim (fun t => - f t) x (- l).
Proof. intros. now apply derivable_pt_lim_opp. Qed.

(** Equality near the point is enough (two-sided). *)
Lemma dlim_ext_near : forall f g x l r, 0 < r -> (forall t, Rabs (t - x) < r -> f t = g t) ->
  derivable_pt_lim f x l -> derivable_pt_lim g x l.
Proof.
  intros f g x l r Hr E H eps Heps. destruct (H eps Heps) as [d Hd].
  assert (Hm : 0 < Rmin d r) by (apply Rmin_pos; [apply cond_pos|exact Hr]).
  exists (mkposreal _ Hm). intros h Hh Ha. cbn in Ha.
  assert (Rabs h < d) by (eapply Rlt_le_trans; [exact Ha|apply Rmin_l]).
  assert (Rabs h < r) by (eapply Rlt_le_trans; [exact Ha|apply Rmin_r]).
  rewrite <- !E; [now apply Hd| |].
  - replace (x - x) with 0 by ring. now rewrite Rabs_R0.
  - now replace (x + h - x) with h by ring.
Qed.

Lemma d_sumexp : forall K phi i, (i < K)%nat ->
  derivable_pt_lim (fun t => sumexp K (vupd phi i t)) (phi i) (exp (phi i)).
Proof.
  intros K phi i Hi.
  apply (dlim_ext (fun t => exp t + (sumexp K phi - exp (phi i)))).
  - intros t. unfold sumexp. rewrite (rsum_vupd K exp phi i t Hi). ring.
  - eapply dlim_eq; [apply d_plus; [apply d_exp|apply d_const]|ring].
Qed.

Lemma d_ln_sumexp : forall K phi i, (i < K)%nat ->
  derivable_pt_lim (fun t => ln (sumexp K (vupd phi i t))) (phi i) (exp (phi i) / sumexp K phi).
Proof.
  intros K phi i Hi. assert (HK : (0 < K)%nat) by lia.
  eapply dlim_eq; [apply (d_comp (fun t => sumexp K (vupd phi i t)) ln); [now apply d_sumexp|]|].
  - apply d_ln. rewrite vupd_same. now apply sumexp_pos.
  - rewrite vupd_same. field. pose proof (sumexp_pos K phi HK). lra.
Qed.

Lemma d_rsum : forall K (F : nat -> R -> R) x (l : nat -> R),
  (forall j, (j < K)%nat -> derivable_pt_lim (F j) x (l j)) ->
  derivable_pt_lim (fun t => rsum K (fun j => F j t)) x (rsum K l).
Proof.
  induction K as [|K IH]; intros F x l H; cbn [rsum]; [apply d_const|].
  apply d_plus; [apply IH; intros; apply H; lia|apply H; lia].
Qed.

Lemma d_mult : forall f g x l m, derivable_pt_lim f x l -> derivable_pt_lim g x m ->
  derivable_pt_lim (fun t => f t * g t) x (l * g x + f x * m).
Proof. intros. now apply derivable_pt_lim_mult. Qed.

Lemma d_inv : forall f x l, f x <> 0 -> derivable_pt_lim f x l ->
  derivable_pt_lim (fun t => / f t) x (- l / (f x) ^ 2).
Proof.
  intros f x l Hn H. apply (dlim_ext (fct_cte 1 / f)%F).
  - intros t. unfold div_fct, fct_cte. unfold Rdiv. ring.
  - eapply dlim_eq; [apply derivable_pt_lim_div; [apply derivable_pt_lim_const|exact H|exact Hn]|].
    unfold fct_cte, Rsqr. field. exact Hn.
Qed.
