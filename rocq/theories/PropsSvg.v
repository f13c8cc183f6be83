(** PropsSvg.v – C119, C120: the picture of a Temperley-Lieb diagram. *)
From Coq Require Import Reals Arith Lia Lra Psatz.
From Verif Require Import Base SpecTL ModelSvg.
From Verif Require TLTheory.
Local Open Scope nat_scope.

(** ** specification *)
(** the curve of the path at the parameter t *)
Definition bezier (c : curve) (t : R) : R * R :=
  (((1 - t) ^ 3 * cv_sx c + 3 * t * (1 - t) ^ 2 * cv_x1 c + 3 * t ^ 2 * (1 - t) * cv_x2 c + t ^ 3 * cv_tx c)%R,
   ((1 - t) ^ 3 * cv_sy c + 3 * t * (1 - t) ^ 2 * cv_y1 c + 3 * t ^ 2 * (1 - t) * cv_y2 c + t ^ 3 * cv_ty c)%R).
(** the places of the points: two centred rows of points, 15 apart, margin 10; the
    points 0, ..., bot - 1 are the lower row from left to right, the others the upper row
    from right to left *)
Definition row_x (widest count k : nat) : R := (10 + 15 * (INR k + (INR widest - INR count) / 2))%R.
Definition place (bot top v : nat) : R * R :=
  if v <? bot then (row_x (Nat.max bot top) bot v, 35%R) else (row_x (Nat.max bot top) top (bot + top - 1 - v), 0%R).
(** a fixed-point free involution *)
Definition matching (s : list nat) : Prop :=
  forall i, i < length s -> nth i s 0 < length s /\ nth i s 0 <> i /\ nth (nth i s 0) s 0 = i.
(** the arcs {i, s i} of a matching, each once, by their smaller end *)
Definition arcs (s : list nat) : list nat := filter (fun i => i <? nth i s 0) (seq 0 (length s)).

(** ** the loop *)
Section Loop.
Variable s : list nat.
Variable bot : nat.
Hypothesis M : matching s.
Let N := length s.
Definition drawn_at (k : nat) : list bool := map (fun j => (j <? k) || (nth j s 0 <? k)) (seq 0 (length s)).
Lemma drawn_nth k j : j < N -> nth_error (drawn_at k) j = Some ((j <? k) || (nth j s 0 <? k)).
Proof using.
  intros H. unfold drawn_at. rewrite nth_error_map, (nth_error_nth' (seq 0 (length s)) 0) by (rewrite seq_length; exact H). rewrite seq_nth by exact H. reflexivity.
Qed.
Lemma drawn_length k : length (drawn_at k) = N.
Proof using. unfold drawn_at. now rewrite map_length, seq_length. Qed.
Lemma bool_ext (a b : list bool) : length a = length b -> (forall j, j < length b -> nth_error a j = nth_error b j) -> a = b.
Proof using.
  clear. revert b. induction a as [|x a IH]; intros [|y b] L H; try discriminate; [reflexivity|]. f_equal; [specialize (H 0 ltac:(cbn; lia)); cbn in H; congruence|].
  apply IH; [cbn in L; lia|]. intros j Hj. apply (H (Datatypes.S j)). cbn. lia.
Qed.
Definition path_at (k : nat) : list curve := map (fun i => arc_curve N bot i (nth i s 0)) (filter (fun i => i <? nth i s 0) (seq 0 k)).
Lemma step k : k < N -> draw_step s bot (drawn_at k, path_at k) k = Ok (drawn_at (k + 1), path_at (k + 1)).
Proof using M.
  intros H. destruct (M k H) as (L & NE & INV). unfold draw_step. unfold get at 1. rewrite drawn_nth by exact H. rewrite Nat.ltb_irrefl. cbn [orb bind].
  assert (PA : path_at (k + 1) = path_at k ++ (if k <? nth k s 0 then [arc_curve N bot k (nth k s 0)] else [])).
  { unfold path_at. rewrite seq_app, filter_app, map_app. cbn [seq filter map Nat.add]. destruct (k <? nth k s 0); reflexivity. }
  destruct (Nat.ltb_spec (nth k s 0) k) as [Lt|Ge].
  - rewrite PA. rewrite (proj2 (Nat.ltb_ge _ _)) by lia. rewrite app_nil_r. do 2 f_equal. apply bool_ext; [now rewrite !drawn_length|]. rewrite drawn_length. intros j Hj. rewrite !drawn_nth by exact Hj. f_equal.
    destruct (M j Hj) as (Lj & NEj & INVj). destruct (Nat.ltb_spec j k), (Nat.ltb_spec (nth j s 0) k), (Nat.ltb_spec j (k + 1)), (Nat.ltb_spec (nth j s 0) (k + 1)); try reflexivity; try lia; exfalso.
    all: try (assert (j = k) by lia; subst j; lia). all: assert (E : nth j s 0 = k) by lia; rewrite E in INVj; lia.
  - rewrite (get_ok s k 0) by exact H. cbn [bind]. rewrite set_ok by (rewrite drawn_length; exact H). cbn [bind]. rewrite set_ok by (rewrite upd_length, drawn_length; exact L). cbn [bind].
    rewrite PA. rewrite (proj2 (Nat.ltb_lt _ _)) by lia. do 2 f_equal. apply bool_ext; [now rewrite !upd_length, !drawn_length|]. rewrite drawn_length. intros j Hj.
    rewrite !nth_error_upd, !upd_length, !drawn_length, !drawn_nth by exact Hj. rewrite (proj2 (Nat.ltb_lt (nth k s 0) N) L), (proj2 (Nat.ltb_lt k N) H), !andb_true_r.
    destruct (M j Hj) as (Lj & NEj & INVj). destruct (Nat.eqb_spec (nth k s 0) j) as [E|E].
    + f_equal. rewrite <- E, INV. destruct (Nat.ltb_spec k (k + 1)); [now rewrite orb_true_r|lia].
    + destruct (Nat.eqb_spec k j) as [E'|E']; f_equal.
      * subst j. destruct (Nat.ltb_spec k (k + 1)); [reflexivity|lia].
      * destruct (Nat.ltb_spec j k), (Nat.ltb_spec (nth j s 0) k), (Nat.ltb_spec j (k + 1)), (Nat.ltb_spec (nth j s 0) (k + 1)); try reflexivity; try lia; exfalso.
        assert (Q : nth j s 0 = k) by lia. rewrite Q in INVj. congruence.
Qed.
Lemma loop k : k <= N -> foldM (draw_step s bot) (seq 0 k) (repeat false N, []) = Ok (drawn_at k, path_at k).
Proof using M.
  induction k as [|k IH]; intros H.
  - cbn [seq foldM]. f_equal. f_equal. apply bool_ext; [now rewrite repeat_length, drawn_length|]. rewrite drawn_length. intros j Hj. rewrite drawn_nth by exact Hj.
    destruct (Nat.ltb_spec j 0), (Nat.ltb_spec (nth j s 0) 0); try lia. cbn. rewrite (nth_error_nth' _ false) by (rewrite repeat_length; exact Hj). f_equal. apply nth_repeat.
  - rewrite seq_S, foldM_app, IH by lia. cbn [bind foldM Nat.add]. rewrite step by lia. cbn [bind]. now replace (k + 1) with (Datatypes.S k) by lia.
Qed.
Lemma drawing : bot <= N -> draw_svg s bot = Ok (mkPicture (svg_width bot (N - bot)) svg_height (map (fun i => arc_curve N bot i (nth i s 0)) (arcs s))).
Proof using M.
  intros H. unfold draw_svg. fold N. rewrite (proj2 (Nat.leb_le _ _) H). cbn [assert_ bind]. rewrite loop by lia. cbn [bind]. reflexivity.
Qed.
End Loop.

(** ** positions *)
Lemma pos_place bot top v : v < bot + top -> pos (bot + top) bot v = place bot top v.
Proof.
  intros H. unfold pos, place, row_x, numx, svg_width, svg_height, svg_M, svg_W. replace (bot + top - bot) with top by lia. destruct (Nat.ltb_spec v bot) as [L|L].
  - f_equal. lra.
  - replace (bot + top - 1 - v) with (bot + top - v - 1) by lia. f_equal. lra.
Qed.
(** ** C119 *)
Lemma in_arcs s i : In i (arcs s) <-> i < length s /\ i < nth i s 0.
Proof. unfold arcs. rewrite filter_In, in_seq, Nat.ltb_lt. lia. Qed.
(** the picture has one curve per arc, in the order of the left or lower ends, from the
    place of one end to the place of the other *)
Theorem C119_arcs s bot top : matching s -> length s = bot + top ->
  exists pic, draw_svg s bot = Ok pic /\ pc_width pic = (20 + 15 * (INR (Nat.max bot top) - 1))%R /\ pc_height pic = 35%R /\
    Forall2 (fun i c => bezier c 0 = place bot top i /\ bezier c 1 = place bot top (nth i s 0)) (arcs s) (pc_path pic).
Proof.
  intros M E. eexists. split; [apply drawing; [exact M|lia]|]. cbn [pc_width pc_height pc_path]. rewrite E. replace (bot + top - bot) with top by lia.
  split; [unfold svg_width, svg_M, svg_W; lra|]. split; [reflexivity|].
  assert (K : forall i, In i (arcs s) -> bezier (arc_curve (bot + top) bot i (nth i s 0)) 0 = place bot top i /\ bezier (arc_curve (bot + top) bot i (nth i s 0)) 1 = place bot top (nth i s 0)).
  { intros i Hi. apply in_arcs in Hi. destruct Hi as [Hi _]. destruct (M i Hi) as (Hj & _). rewrite E in *. rewrite <- !pos_place by assumption. unfold arc_curve. destruct (pos (bot + top) bot i) as [sx sy], (pos (bot + top) bot (nth i s 0)) as [tx ty].
    destruct (_ || _)%bool; unfold bezier; cbn [cv_sx cv_sy cv_x1 cv_y1 cv_x2 cv_y2 cv_tx cv_ty]; split; f_equal; ring. }
  revert K. generalize (arcs s) as l. induction l as [|i l IH]; intros K; cbn [map]; constructor; [apply K; now left|]. apply IH. intros; apply K. now right.
Qed.
(** every point is an end of exactly one curve *)
Theorem C119_once s v : matching s -> v < length s -> exists! i, In i (arcs s) /\ (v = i \/ v = nth i s 0).
Proof.
  intros M H. destruct (M v H) as (L & NE & INV). destruct (Nat.lt_ge_cases v (nth v s 0)) as [C|C].
  - exists v. split; [rewrite in_arcs; auto|]. intros i [Hi [->|Ev]]; [reflexivity|]. apply in_arcs in Hi. destruct Hi as [Hi Li]. destruct (M i Hi) as (_ & _ & Ii). rewrite <- Ev in Ii. lia.
  - exists (nth v s 0). split; [rewrite in_arcs, INV; split; [lia|now right]|]. intros i [Hi [->|Ev]]; apply in_arcs in Hi; destruct Hi as [Hi Li]; [lia|]. destruct (M i Hi) as (_ & _ & Ii). rewrite <- Ev in Ii. exact Ii.
Qed.
Theorem C119_each_once s : NoDup (arcs s).
Proof. apply NoDup_filter, seq_NoDup. Qed.
(** different points have different places *)
Theorem C119_places bot top v w : v < bot + top -> w < bot + top -> place bot top v = place bot top w -> v = w.
Proof.
  intros Hv Hw. unfold place, row_x. destruct (Nat.ltb_spec v bot), (Nat.ltb_spec w bot); intros E; injection E as E; try lra.
  - apply INR_eq. lra.
  - assert (INR (bot + top - 1 - v) = INR (bot + top - 1 - w)) as Q by lra. apply INR_eq in Q. lia.
Qed.

Lemma convex a b t p0 p1 p2 p3 : (0 <= t <= 1 -> a <= p0 <= b -> a <= p1 <= b -> a <= p2 <= b -> a <= p3 <= b ->
  a <= (1 - t) ^ 3 * p0 + 3 * t * (1 - t) ^ 2 * p1 + 3 * t ^ 2 * (1 - t) * p2 + t ^ 3 * p3 <= b)%R.
Proof.
  intros [T0 T1] [A0 B0] [A1 B1] [A2 B2] [A3 B3].
  assert (U : (0 <= 1 - t)%R) by lra.
  assert (W0 : (0 <= (1 - t) ^ 3)%R) by (apply pow_le; exact U). assert (W3 : (0 <= t ^ 3)%R) by (apply pow_le; exact T0).
  assert (W1 : (0 <= 3 * t * (1 - t) ^ 2)%R) by (apply Rmult_le_pos; [lra|apply pow_le; exact U]). assert (W2 : (0 <= 3 * t ^ 2 * (1 - t))%R) by (apply Rmult_le_pos; [apply Rmult_le_pos; [lra|apply pow_le; exact T0]|exact U]).
  set (w0 := ((1 - t) ^ 3)%R) in *. set (w1 := (3 * t * (1 - t) ^ 2)%R) in *. set (w2 := (3 * t ^ 2 * (1 - t))%R) in *. set (w3 := (t ^ 3)%R) in *.
  assert (S : (w0 + w1 + w2 + w3 = 1)%R) by (unfold w0, w1, w2, w3; ring).
  assert (E1 : (w0 * p0 + w1 * p1 + w2 * p2 + w3 * p3 - a = w0 * (p0 - a) + w1 * (p1 - a) + w2 * (p2 - a) + w3 * (p3 - a))%R) by (replace a with (a * (w0 + w1 + w2 + w3))%R at 1 by (rewrite S; ring); ring).
  assert (E2 : (b - (w0 * p0 + w1 * p1 + w2 * p2 + w3 * p3) = w0 * (b - p0) + w1 * (b - p1) + w2 * (b - p2) + w3 * (b - p3))%R) by (replace b with (b * (w0 + w1 + w2 + w3))%R at 1 by (rewrite S; ring); ring).
  assert (Q1 : (0 <= w0 * (p0 - a) + w1 * (p1 - a) + w2 * (p2 - a) + w3 * (p3 - a))%R) by (repeat apply Rplus_le_le_0_compat; apply Rmult_le_pos; lra).
  assert (Q2 : (0 <= w0 * (b - p0) + w1 * (b - p1) + w2 * (b - p2) + w3 * (b - p3))%R) by (repeat apply Rplus_le_le_0_compat; apply Rmult_le_pos; lra).
  lra.
Qed.
(** the factor [dist] of an arc of length l *)
Definition bend (l : nat) : R := (1 / (1 + exp (- INR l / 4)))%R.
Lemma bend_range l : (0 < bend l < 1)%R.
Proof.
  unfold bend. pose proof (exp_pos (- INR l / 4)) as P. split.
  - apply Rdiv_lt_0_compat; lra.
  - apply (Rmult_lt_reg_r (1 + exp (- INR l / 4))); [lra|]. unfold Rdiv. rewrite Rmult_assoc, Rinv_l by lra. lra.
Qed.
Lemma place_range bot top v : v < bot + top -> (10 <= fst (place bot top v) <= 20 + 15 * (INR (Nat.max bot top) - 1) - 10)%R /\ (0 <= snd (place bot top v) <= 35)%R.
Proof.
  intros H. unfold place, row_x. pose proof (le_INR _ _ (Nat.le_max_l bot top)) as A. pose proof (le_INR _ _ (Nat.le_max_r bot top)) as B. destruct (Nat.ltb_spec v bot); cbn [fst snd].
  - split; [|lra]. pose proof (pos_INR v). assert (Q : (INR (v + 1) <= INR bot)%R) by (apply le_INR; lia). rewrite plus_INR in Q. change (INR 1) with 1%R in Q. lra.
  - split; [|lra]. pose proof (pos_INR (bot + top - 1 - v)). assert (Q : (INR (bot + top - 1 - v + 1) <= INR top)%R) by (apply le_INR; lia). rewrite plus_INR in Q. change (INR 1) with 1%R in Q. lra.
Qed.
(** every point of every curve is inside the picture, at least the margin 10 away from
    its left and right borders *)
Theorem C119_inside s bot top pic c t : matching s -> length s = bot + top -> draw_svg s bot = Ok pic -> In c (pc_path pic) -> (0 <= t <= 1)%R ->
  (10 <= fst (bezier c t) <= pc_width pic - 10)%R /\ (0 <= snd (bezier c t) <= pc_height pic)%R.
Proof.
  intros M E D I T. rewrite (drawing s bot M) in D by lia. injection D as <-. cbn [pc_path pc_width pc_height] in *. apply in_map_iff in I. destruct I as (i & <- & Hi). apply in_arcs in Hi. destruct Hi as [Hi _]. destruct (M i Hi) as (Hj & _).
  rewrite E in *. replace (bot + top - bot) with top by lia. unfold arc_curve. rewrite !pos_place by assumption. destruct (place_range bot top i Hi) as [X1 Y1]. destruct (place_range bot top (nth i s 0) Hj) as [X2 Y2].
  set (dd := (1 / (1 + exp (- INR (Nat.max i (nth i s 0%nat) - Nat.min i (nth i s 0%nat)) / 4)))%R). assert (DD : (0 < dd < 1)%R) by apply bend_range.
  assert (P1 : snd (place bot top i) = (if i <? bot then 35%R else 0%R)) by (unfold place; destruct (i <? bot); reflexivity).
  assert (P2 : snd (place bot top (nth i s 0)) = (if nth i s 0 <? bot then 35%R else 0%R)) by (unfold place; destruct (nth i s 0 <? bot); reflexivity).
  destruct (place bot top i) as [sx sy], (place bot top (nth i s 0)) as [tx ty]. cbn [fst snd] in *. assert (SW : svg_width bot top = (20 + 15 * (INR (Nat.max bot top) - 1))%R) by (unfold svg_width, svg_M, svg_W; lra). rewrite SW.
  unfold svg_C, svg_height. destruct (Nat.ltb_spec i bot), (Nat.ltb_spec (nth i s 0) bot), (Nat.leb_spec bot i), (Nat.leb_spec bot (nth i s 0)); try lia; cbn [andb orb]; unfold bezier; cbn [cv_sx cv_sy cv_x1 cv_y1 cv_x2 cv_y2 cv_tx cv_ty fst snd];
    subst sy ty; split; apply convex; try exact T; try assumption; lra.
Qed.
(** ** C120 *)
(** two curves have a common point *)
Definition meet (c c' : curve) : Prop := exists t t', (0 <= t <= 1)%R /\ (0 <= t' <= 1)%R /\ bezier c t = bezier c' t'.
Definition h (t : R) : R := (3 * t ^ 2 - 2 * t ^ 3)%R.
Lemma h_range t : (0 <= t <= 1 -> 0 <= h t <= 1)%R.
Proof. intros [A B]. unfold h. split; [assert (0 <= t ^ 2)%R by (apply pow_le; exact A); nra|]. assert (0 <= (1 - t) ^ 2)%R by (apply pow_le; lra). nra. Qed.
Section Curves.
Variables bot top : nat.
Let N := bot + top.
Let PX v := fst (place bot top v).
Lemma cup_point i j t : i < j -> j < bot -> bezier (arc_curve N bot i j) t = ((PX i + (PX j - PX i) * h t)%R, (35 - 75 * bend (j - i) * (t * (1 - t)))%R).
Proof using.
  intros A B. unfold arc_curve. rewrite (Nat.max_r i j), (Nat.min_l i j) by lia. fold (bend (j - i)). unfold N. rewrite !pos_place by lia. unfold PX. unfold place at 1 2. rewrite !(proj2 (Nat.ltb_lt _ _)) by lia. cbn [andb orb fst].
  unfold place. rewrite !(proj2 (Nat.ltb_lt _ _)) by lia. unfold bezier, h, svg_C. cbn [cv_sx cv_sy cv_x1 cv_y1 cv_x2 cv_y2 cv_tx cv_ty fst]. f_equal; ring.
Qed.
Lemma cap_point i j t : bot <= i -> i < j -> j < N -> bezier (arc_curve N bot i j) t = ((PX i + (PX j - PX i) * h t)%R, (75 * bend (j - i) * (t * (1 - t)))%R).
Proof using.
  intros A B C. unfold arc_curve. rewrite (Nat.max_r i j), (Nat.min_l i j) by lia. fold (bend (j - i)). unfold N in *. rewrite !pos_place by lia. unfold PX. unfold place at 1 2. rewrite !(proj2 (Nat.ltb_ge _ _)) by lia. rewrite !(proj2 (Nat.leb_le _ _)) by lia. cbn [andb orb fst].
  unfold place. rewrite !(proj2 (Nat.ltb_ge _ _)) by lia. unfold bezier, h, svg_C. cbn [cv_sx cv_sy cv_x1 cv_y1 cv_x2 cv_y2 cv_tx cv_ty fst]. f_equal; ring.
Qed.
Definition rise (t : R) : R := (35 - 75 * t + 120 * t ^ 2 - 80 * t ^ 3)%R.
Lemma strand_point i j t : i < bot -> bot <= j -> j < N -> bezier (arc_curve N bot i j) t = ((PX i + (PX j - PX i) * h t)%R, rise t).
Proof using.
  intros A B C. unfold arc_curve. unfold N in *. rewrite !pos_place by lia. unfold PX. unfold place at 1 2. rewrite (proj2 (Nat.ltb_lt i bot)), (proj2 (Nat.ltb_ge j bot)) by lia. rewrite (proj2 (Nat.leb_gt bot i)) by lia. cbn [andb orb fst].
  unfold place. rewrite (proj2 (Nat.ltb_lt i bot)), (proj2 (Nat.ltb_ge j bot)) by lia. unfold bezier, h, rise, svg_C. cbn [cv_sx cv_sy cv_x1 cv_y1 cv_x2 cv_y2 cv_tx cv_ty fst]. f_equal; ring.
Qed.
Lemma PX_low i j : i < j -> j < bot -> (PX i < PX j)%R.
Proof using. intros A B. unfold PX, place. rewrite !(proj2 (Nat.ltb_lt _ _)) by lia. cbn [fst]. unfold row_x. apply lt_INR in A. lra. Qed.
Lemma PX_high i j : bot <= i -> i < j -> j < N -> (PX j < PX i)%R.
Proof using. intros A B C. unfold N in C. unfold PX, place. rewrite !(proj2 (Nat.ltb_ge _ _)) by lia. cbn [fst]. unfold row_x. assert (Q : bot + top - 1 - j < bot + top - 1 - i) by lia. apply lt_INR in Q. lra. Qed.
Lemma rise_inj t t' : rise t = rise t' -> t = t'.
Proof using.
  intros E. unfold rise in E. destruct (Req_dec t t') as [|NE]; [assumption|exfalso].
  assert (F : ((t - t') * (75 - 120 * (t + t') + 80 * (t ^ 2 + t * t' + t' ^ 2)) = 0)%R) by lra. apply Rmult_integral in F. destruct F as [F|F]; [lra|]. pose proof (pow2_ge_0 (t - t')). pose proof (pow2_ge_0 (t + t' - 1)). nra.
Qed.
Lemma h_between a b u v t : (a < u -> b < v -> 0 <= t <= 1 -> a + (b - a) * h t < u + (v - u) * h t)%R.
Proof using. intros A B T. pose proof (h_range t T) as [H0 H1]. set (q := h t) in *. assert (E : ((u + (v - u) * q) - (a + (b - a) * q) = (1 - q) * (u - a) + q * (v - b))%R) by ring. assert (0 <= (1 - q) * (u - a))%R by (apply Rmult_le_pos; lra). assert (0 <= q * (v - b))%R by (apply Rmult_le_pos; lra). destruct (Rle_lt_dec q (1 / 2)) as [C|C]; [assert (0 < (1 - q) * (u - a))%R by (apply Rmult_lt_0_compat; lra)|assert (0 < q * (v - b))%R by (apply Rmult_lt_0_compat; lra)]; lra. Qed.
End Curves.
Lemma bend_mono l l' : l < l' -> (bend l < bend l')%R.
Proof.
  intros H. unfold bend. assert (E : (exp (- INR l' / 4) < exp (- INR l / 4))%R) by (apply exp_increasing; apply lt_INR in H; lra). pose proof (exp_pos (- INR l' / 4)).
  unfold Rdiv. rewrite !Rmult_1_l. apply Rinv_lt_contravar; [apply Rmult_lt_0_compat; lra|lra].
Qed.

Lemma bend_10 l : l <= 10 -> (bend l < 14 / 15)%R.
Proof.
  intros H. assert (B : (bend l <= bend 10)%R) by (destruct (Nat.eq_dec l 10) as [->|]; [lra|left; apply bend_mono; lia]). apply (Rle_lt_trans _ _ _ B). unfold bend.
  assert (X : (15 / 16 <= exp (- 1 / 16))%R) by (pose proof (exp_ineq1_le (- 1 / 16)); lra).
  assert (Y : (exp (- INR 10 / 4) = exp (- 1 / 16) ^ 40)%R). { rewrite <- (Rpower_pow 40) by apply exp_pos. unfold Rpower. rewrite ln_exp. f_equal. rewrite !INR_IZR_INZ. cbn. lra. }
  assert (Z : ((15 / 16) ^ 40 <= exp (- 1 / 16) ^ 40)%R) by (apply pow_incr; lra).
  assert (W : (1 / 14 < (15 / 16) ^ 40)%R) by (cbn [pow]; lra). rewrite <- Y in Z. apply (Rmult_lt_reg_r (1 + exp (- INR 10 / 4))); [lra|]. unfold Rdiv at 1. rewrite Rmult_assoc, Rinv_l by lra. lra.
Qed.
Lemma quarter t : (0 <= t <= 1 -> 0 <= t * (1 - t) <= 1 / 4)%R.
Proof. intros [A B]. split; [apply Rmult_le_pos; lra|]. pose proof (pow2_ge_0 (2 * t - 1)). lra. Qed.
Section Positive.
Variables (s : list nat) (bot top : nat).
Hypothesis CL : crossingless s.
Hypothesis E : length s = bot + top.
Let cv i := arc_curve (bot + top) bot i (nth i s 0).
(** two arcs of the same row beside each other *)
Theorem C120_beside_partial i k : In i (arcs s) -> In k (arcs s) -> (nth k s 0 < bot \/ bot <= i) -> nth i s 0 < k -> ~ meet (cv i) (cv k).
Proof using All.
  intros Hi Hk Side Lt (t & t' & T & T' & Q). apply in_arcs in Hi, Hk. destruct Hi as [Li Ai], Hk as [Lk Ak]. pose proof (proj1 (proj1 CL i Li)) as Bi. pose proof (proj1 (proj1 CL k Lk)) as Bk. rewrite E in *. unfold cv in Q.
  pose proof (h_range t T) as [H0 H1]. pose proof (h_range t' T') as [H0' H1']. destruct Side as [Sd|Sd].
  - rewrite !cup_point in Q by lia. injection Q as Q _. pose proof (PX_low bot top i (nth i s 0) Ai ltac:(lia)). pose proof (PX_low bot top k (nth k s 0) Ak ltac:(lia)). pose proof (PX_low bot top (nth i s 0) k Lt ltac:(lia)). nra.
  - rewrite !cap_point in Q by lia. injection Q as Q _. pose proof (PX_high bot top i (nth i s 0) Sd Ai ltac:(lia)). pose proof (PX_high bot top k (nth k s 0) ltac:(lia) Ak ltac:(lia)). pose proof (PX_high bot top (nth i s 0) k ltac:(lia) Lt ltac:(lia)). nra.
Qed.
(** two strands from the lower to the upper row *)
Theorem C120_strands_partial i k : In i (arcs s) -> In k (arcs s) -> i < k -> k < bot -> bot <= nth i s 0 -> bot <= nth k s 0 -> ~ meet (cv i) (cv k).
Proof using All.
  intros Hi Hk Lt Lb Ui Uk (t & t' & T & T' & Q). apply in_arcs in Hi, Hk. destruct Hi as [Li Ai], Hk as [Lk Ak]. pose proof (proj1 (proj1 CL i Li)) as Bi. pose proof (proj1 (proj1 CL k Lk)) as Bk.
  assert (X : nth k s 0 < nth i s 0). { destruct (Nat.lt_trichotomy (nth k s 0) (nth i s 0)) as [C|[C|C]]; [exact C| |]; exfalso; [|apply (proj2 CL i k Lk); lia]. pose proof (proj1 CL i Li) as (_ & _ & I1). pose proof (proj1 CL k Lk) as (_ & _ & I2). rewrite C in I2. lia. }
  rewrite E in *. unfold cv in Q. rewrite !strand_point in Q by lia. injection Q as Q1 Q2. apply rise_inj in Q2. subst t'.
  pose proof (PX_low bot top i k Lt ltac:(lia)) as P1. pose proof (PX_high bot top (nth k s 0) (nth i s 0) Uk X ltac:(lia)) as P2.
  pose proof (h_between _ _ _ _ t P1 P2 T) as F. cbn zeta in F, Q1. lra.
Qed.
Lemma concentric L l D d a b : (0 < l < L -> 0 < d < D -> 0 <= a <= 1 -> 0 <= b <= 1 -> L * (2 * h a - 1) = l * (2 * h b - 1) -> D * (a * (1 - a)) = d * (b * (1 - b)) -> False)%R.
Proof using.
  clear. intros [L0 L1] [D0 D1] [A0 A1] [B0 B1] Q1 Q2. set (x := (2 * a - 1)%R). set (y := (2 * b - 1)%R).
  assert (X2 : (x ^ 2 <= 1)%R) by (unfold x; nra). assert (Y2 : (y ^ 2 <= 1)%R) by (unfold y; nra).
  assert (R2 : (D * (1 - x ^ 2) = d * (1 - y ^ 2))%R) by (unfold x, y; nra).
  assert (R1 : (L * (x * (3 - x ^ 2)) = l * (y * (3 - y ^ 2)))%R) by (unfold x, y; unfold h in Q1; nra).
  set (p := (x ^ 2)%R) in *. set (q := (y ^ 2)%R) in *. assert (P0 : (0 <= p)%R) by (unfold p; nra). assert (Q0 : (0 <= q)%R) by (unfold q; nra).
  assert (R3 : (L ^ 2 * (p * (3 - p) ^ 2) = l ^ 2 * (q * (3 - q) ^ 2))%R).
  { replace (L ^ 2 * (p * (3 - p) ^ 2))%R with ((L * (x * (3 - p))) ^ 2)%R by (unfold p; ring). rewrite R1. unfold q. ring. }
  assert (LL : (0 < l ^ 2 < L ^ 2)%R) by nra. assert (PQ : (q <= p)%R) by nra.
  assert (F : (q * (3 - q) ^ 2 <= p * (3 - p) ^ 2)%R).
  { assert ((p * (3 - p) ^ 2 - q * (3 - q) ^ 2 = (p - q) * (3 * ((1 - p) + (1 - q)) + (1 - p) ^ 2 + (1 - p) * (1 - q) + (1 - q) ^ 2))%R) as F by ring.
    assert (0 <= (p - q) * (3 * ((1 - p) + (1 - q)) + (1 - p) ^ 2 + (1 - p) * (1 - q) + (1 - q) ^ 2))%R; [|lra]. apply Rmult_le_pos; [lra|]. assert (0 <= (1 - p) * (1 - q))%R by (apply Rmult_le_pos; lra). nra. }
  assert (F0 : (0 <= q * (3 - q) ^ 2)%R) by (apply Rmult_le_pos; [exact Q0|nra]).
  assert (Z : (q * (3 - q) ^ 2 = 0)%R) by nra. assert (Zp : (p * (3 - p) ^ 2 = 0)%R) by nra.
  assert (q = 0)%R by (apply Rmult_integral in Z; destruct Z as [Z|Z]; [exact Z|exfalso; nra]). assert (p = 0)%R by (apply Rmult_integral in Zp; destruct Zp as [Zp|Zp]; [exact Zp|exfalso; nra]). nra.
Qed.
(** two arcs of the same row, one inside the other, with the same centre *)
Theorem C120_concentric_partial i k : In i (arcs s) -> In k (arcs s) -> (nth i s 0 < bot \/ bot <= i) -> i < k -> i + nth i s 0 = k + nth k s 0 -> ~ meet (cv i) (cv k).
Proof using All.
  intros Hi Hk Side Lt Cn (t & t' & T & T' & Q). apply in_arcs in Hi, Hk. destruct Hi as [Li Ai], Hk as [Lk Ak]. pose proof (proj1 (proj1 CL i Li)) as Bi. rewrite E in *. unfold cv in Q.
  pose proof (bend_mono (nth k s 0 - k) (nth i s 0 - i) ltac:(lia)) as BM. pose proof (bend_range (nth k s 0 - k)) as BR.
  set (j := nth i s 0) in *. set (l := nth k s 0) in *. assert (LL : (0 < INR l - INR k < INR j - INR i)%R). { assert (INR i + INR j = INR k + INR l)%R by (rewrite <- !plus_INR; now f_equal). apply lt_INR in Lt, Ak. lra. }
  assert (CC : (INR i + INR j = INR k + INR l)%R) by (rewrite <- !plus_INR; now f_equal). destruct Side as [Sd|Sd].
  - rewrite !cup_point in Q by lia. injection Q as Q1 Q2. unfold place in Q1. rewrite !(proj2 (Nat.ltb_lt _ _)) in Q1 by lia. cbn [fst] in Q1. unfold row_x in Q1.
    apply (concentric (INR j - INR i) (INR l - INR k) (bend (j - i)) (bend (l - k)) t t'); try assumption; try lra.
  - rewrite !cap_point in Q by lia. injection Q as Q1 Q2. unfold place in Q1. rewrite !(proj2 (Nat.ltb_ge _ _)) in Q1 by lia. cbn [fst] in Q1. unfold row_x in Q1.
    rewrite !minus_INR, !plus_INR in Q1 by lia.
    apply (concentric (INR j - INR i) (INR l - INR k) (bend (j - i)) (bend (l - k)) t t'); try assumption; try lra.
Qed.
(** an arc of the lower and an arc of the upper row, of length at most 10 *)
Theorem C120_rows_partial i k : In i (arcs s) -> In k (arcs s) -> nth i s 0 < bot -> bot <= k -> nth i s 0 - i <= 10 -> nth k s 0 - k <= 10 -> ~ meet (cv i) (cv k).
Proof using All.
  intros Hi Hk Lo Up S1 S2 (t & t' & T & T' & Q). apply in_arcs in Hi, Hk. destruct Hi as [Li Ai], Hk as [Lk Ak]. pose proof (proj1 (proj1 CL k Lk)) as Bk. rewrite E in *. unfold cv in Q. rewrite cup_point in Q by lia. rewrite cap_point in Q by lia. injection Q as _ Q.
  pose proof (bend_10 _ S1). pose proof (bend_10 _ S2). pose proof (bend_range (nth i s 0 - i)). pose proof (bend_range (nth k s 0 - k)).
  set (D1 := bend (nth i s 0 - i)) in *. set (D2 := bend (nth k s 0 - k)) in *. pose proof (quarter t T) as A. pose proof (quarter t' T') as B.
  assert (D1 * (t * (1 - t)) <= 14 / 15 * (1 / 4))%R by (apply Rmult_le_compat; lra). assert (D2 * (t' * (1 - t')) <= 14 / 15 * (1 / 4))%R by (apply Rmult_le_compat; lra). 
  assert (D1 * (t * (1 - t)) < 14 / 15 * (1 / 4))%R by (destruct (Req_dec (t * (1 - t)) 0) as [Z|Z]; [rewrite Z; lra|]; apply (Rlt_le_trans _ (14 / 15 * (t * (1 - t)))); [apply Rmult_lt_compat_r; lra|lra]). lra.
Qed.
End Positive.
(** the diagram of TL(12) with six nested arcs in each row: its outermost arcs cross in
    the picture *)
Definition nest12 : list nat := map (fun i => if i <? 12 then 11 - i else 35 - i) (seq 0 24).
Lemma nest12_nth i : i < 24 -> nth i nest12 0 = (if i <? 12 then 11 - i else 35 - i).
Proof. intros H. unfold nest12. now rewrite (nth_map_seq (fun i => if i <? 12 then 11 - i else 35 - i)) by exact H. Qed.
Lemma nest12_ok : crossingless nest12.
Proof.
  split.
  - change (length nest12) with 24. intros i H. rewrite (nest12_nth i) by exact H. destruct (Nat.ltb_spec i 12); (split; [lia|]; split; [lia|]); rewrite nest12_nth by lia.
    + destruct (Nat.ltb_spec (11 - i) 12); lia.
    + destruct (Nat.ltb_spec (35 - i) 12); lia.
  - change (length nest12) with 24. intros i j Hj. intros (A & B & C). rewrite !nest12_nth in * by lia. destruct (Nat.ltb_spec i 12), (Nat.ltb_spec j 12); lia.
Qed.
Theorem C120_refuted : exists s bot pic c c' k k', crossingless s /\ bot <= length s /\ draw_svg s bot = Ok pic /\
  k <> k' /\ nth_error (pc_path pic) k = Some c /\ nth_error (pc_path pic) k' = Some c' /\ meet c c'.
Proof.
  exists nest12, 12. eexists. exists (arc_curve 24 12 0 11), (arc_curve 24 12 12 23), 0, 6. split; [exact nest12_ok|]. split; [cbn; lia|]. split; [apply drawing; [exact (proj1 nest12_ok)|cbn; lia]|].
  split; [lia|]. split; [reflexivity|]. split; [reflexivity|].
  assert (B : (14 / 15 <= bend 11)%R).
  { assert (X : (17 / 16 <= exp (1 / 16))%R) by (pose proof (exp_ineq1_le (1 / 16)); lra).
    assert (Y : (exp (- INR 11 / 4) * exp (1 / 16) ^ 44 = 1)%R). { rewrite <- (Rpower_pow 44) by apply exp_pos. unfold Rpower. rewrite ln_exp, <- exp_plus. match goal with |- exp ?a = _ => replace a with 0%R; [apply exp_0|] end. rewrite !INR_IZR_INZ. cbn. lra. }
    assert (Z : ((17 / 16) ^ 44 <= exp (1 / 16) ^ 44)%R) by (apply pow_incr; lra). assert (W : (14 < (17 / 16) ^ 44)%R) by (cbn [pow]; lra).
    pose proof (exp_pos (- INR 11 / 4)) as P. assert (V : (exp (- INR 11 / 4) * 14 <= 1)%R) by (rewrite <- Y; apply Rmult_le_compat_l; lra).
    unfold bend. apply (Rmult_le_reg_r (1 + exp (- INR 11 / 4))); [lra|]. match goal with |- (_ <= ?a)%R => replace a with 1%R by (field; lra) end. lra. }
  pose proof (bend_range 11) as BR. set (D := bend 11) in *. set (m := (14 / 15 / D)%R). assert (M : (0 <= m <= 1)%R). { unfold m. split; [apply Rlt_le, Rdiv_lt_0_compat; lra|]. apply (Rmult_le_reg_r D); [lra|]. unfold Rdiv at 1. rewrite Rmult_assoc, Rinv_l by lra. lra. }
  assert (MD : (D * m = 14 / 15)%R) by (unfold m; field; lra).
  pose proof (sqrt_sqrt (1 - m) ltac:(lra)) as SS. pose proof (sqrt_pos (1 - m)) as SP. set (r := sqrt (1 - m)) in *. assert (R1 : (r <= 1)%R) by nra.
  exists ((1 - r) / 2)%R, ((1 + r) / 2)%R. split; [lra|]. split; [lra|]. change 24 with (12 + 12). rewrite cup_point by lia. rewrite cap_point by lia. change (11 - 0) with 11. change (23 - 12) with 11. fold D.
  assert (T : ((1 - r) / 2 * (1 - (1 - r) / 2) = m / 4)%R) by nra. assert (T' : ((1 + r) / 2 * (1 - (1 + r) / 2) = m / 4)%R) by nra. rewrite T, T'. f_equal; [|nra].
  assert (HH : (h ((1 + r) / 2) = 1 - h ((1 - r) / 2))%R) by (unfold h; field). rewrite HH. unfold place. cbn [Nat.ltb Nat.leb fst Nat.sub Nat.add Nat.max]. ring.
Qed.
(** 28 points in one row, the outermost arc over thirteen small ones: it passes under the
    top of the first of them *)
Definition comb28 : list nat := map (fun i => if i =? 0 then 27 else if i =? 27 then 0 else if Nat.odd i then i + 1 else i - 1) (seq 0 28).
Lemma comb28_ok : crossingless comb28.
Proof. apply TLTheory.is_cm_Ok. vm_compute. reflexivity. Qed.
Lemma bend_half l : 0 < l -> (1 / 2 < bend l)%R.
Proof.
  intros H. unfold bend. assert (E : (exp (- INR l / 4) < 1)%R) by (rewrite <- exp_0; apply exp_increasing; apply lt_INR in H; change (INR 0) with 0%R in H; lra). pose proof (exp_pos (- INR l / 4)).
  apply (Rmult_lt_reg_r (1 + exp (- INR l / 4))); [lra|]. match goal with |- (_ < ?a)%R => replace a with 1%R by (field; lra) end. lra.
Qed.
Theorem C120_nested_refuted : crossingless comb28 /\ nth 0 comb28 0 = 27 /\ nth 1 comb28 0 = 2 /\
  exists pic c c' t t', draw_svg comb28 28 = Ok pic /\ nth_error (pc_path pic) 0 = Some c /\ nth_error (pc_path pic) 1 = Some c' /\
    bezier c 0 = place 28 0 0 /\ bezier c 1 = place 28 0 27 /\ bezier c' 0 = place 28 0 1 /\ bezier c' 1 = place 28 0 2 /\
    (0 <= t <= 1)%R /\ (0 <= t' <= 1)%R /\ fst (bezier c t) = fst (bezier c' t') /\ (snd (bezier c' t') < snd (bezier c t))%R.
Proof.
  split; [exact comb28_ok|]. split; [reflexivity|]. split; [reflexivity|].
  assert (IV : exists t, (0 <= t <= 146 / 1000)%R /\ h t = (1.5 / 27)%R).
  { destruct (IVT (fun t => 3 * t ^ 2 - 2 * t ^ 3 - 1.5 / 27)%R 0 (146 / 1000)) as (t & T & Z); [reg|lra|lra|lra|]. exists t. split; [exact T|]. unfold h. lra. }
  destruct IV as (t & T & Ht). eexists. exists (arc_curve 28 28 0 27), (arc_curve 28 28 1 2), t, (1 / 2)%R. split; [apply drawing; [exact (proj1 comb28_ok)|cbn; lia]|]. split; [reflexivity|]. split; [reflexivity|].
  pose proof (fun i j t => cup_point 28 0 i j t) as CP. change (28 + 0) with 28 in CP. rewrite !CP by lia.
  assert (H0 : h 0 = 0%R) by (unfold h; ring). assert (H1 : h 1 = 1%R) by (unfold h; ring). rewrite H0, H1. unfold place. cbn [Nat.ltb Nat.leb fst snd].
  split; [f_equal; ring|]. split; [f_equal; ring|]. split; [f_equal; ring|]. split; [f_equal; ring|]. split; [lra|]. split; [lra|]. split.
  - rewrite Ht. unfold row_x. rewrite !INR_IZR_INZ. assert (HH : h (1 / 2) = (1 / 2)%R) by (unfold h; lra). rewrite HH. cbn. lra.
  - change (27 - 0) with 27. change (2 - 1) with 1. pose proof (bend_half 1 ltac:(lia)) as B1. pose proof (bend_range 27) as B2. set (D := bend 27) in *. set (d := bend 1) in *.
    assert (Q : (t * (1 - t) <= 12469 / 100000)%R). { assert ((146 / 1000 - t) * (1 - 146 / 1000 - t) >= 0)%R by (apply Rle_ge, Rmult_le_pos; lra). lra. }
    assert (Q0 : (0 <= t * (1 - t))%R) by (apply Rmult_le_pos; lra). assert (D * (t * (1 - t)) <= 1 * (12469 / 100000))%R by (apply Rmult_le_compat; lra). lra.
Qed.
(** the hypotheses of the theorems are met by this diagram of TL(6, 4) *)
Definition small_diagram : list nat := [3; 2; 1; 0; 9; 6; 5; 8; 7; 4].
Example C119_case : crossingless small_diagram /\ length small_diagram = 6 + 4 /\ arcs small_diagram = [0; 1; 4; 5; 7].
Proof. split; [apply TLTheory.is_cm_Ok; vm_compute; reflexivity|]. split; reflexivity. Qed.
(** beside: 0-3 ends before 4; strands 4-9, 5-6; concentric 0-3 and 1-2; rows: 1-2 below, 7-8 above *)
Example C120_case : exists pic, draw_svg small_diagram 6 = Ok pic /\ length (pc_path pic) = 5 /\
  (forall c c', nth_error (pc_path pic) 2 = Some c -> nth_error (pc_path pic) 3 = Some c' -> ~ meet c c') /\
  (forall c c', nth_error (pc_path pic) 0 = Some c -> nth_error (pc_path pic) 1 = Some c' -> ~ meet c c') /\
  (forall c c', nth_error (pc_path pic) 1 = Some c -> nth_error (pc_path pic) 4 = Some c' -> ~ meet c c').
Proof.
  destruct C119_case as (CL & L & A). eexists. split; [apply drawing; [exact (proj1 CL)|cbn; lia]|]. cbn [pc_path]. rewrite A. split; [reflexivity|]. change (length small_diagram) with (6 + 4). split; [|split].
  - intros c c' E1 E2. injection E1 as <-. injection E2 as <-. apply (C120_strands_partial small_diagram 6 4 CL L 4 5); try (apply in_arcs; cbn; lia); cbn; lia.
  - intros c c' E1 E2. injection E1 as <-. injection E2 as <-. apply (C120_concentric_partial small_diagram 6 4 CL L 0 1); try (apply in_arcs; cbn; lia); cbn; lia.
  - intros c c' E1 E2. injection E1 as <-. injection E2 as <-. apply (C120_rows_partial small_diagram 6 4 CL L 1 7); try (apply in_arcs; cbn; lia); cbn; lia.
Qed.
