(** ModelSvg.v – the picture of a Temperley-Lieb diagram, tl.py:558-615.  Coordinates are
    floats in the code and real numbers here. *)
From Coq Require Import Reals Arith Lia Lra.
From Verif Require Import Base.
Local Open Scope nat_scope.

(** one [svg.M(sx, sy), svg.C(x1, y1, x2, y2, tx, ty)]: a cubic Bezier curve *)
Record curve := mkCurve { cv_sx : R; cv_sy : R; cv_x1 : R; cv_y1 : R; cv_x2 : R; cv_y2 : R; cv_tx : R; cv_ty : R }.
(** the picture: its size and its path.  Stroke, fill and the text of the SVG file
    (the library svg.py) are not modelled. *)
Record picture := mkPicture { pc_width : R; pc_height : R; pc_path : list curve }.

(** tl.py:567-569: the constants M, W, C *)
Definition svg_M : R := 10. Definition svg_W : R := 15. Definition svg_C : R := 25.
(** tl.py:571-572 *)
Definition svg_width (bot top : nat) : R := (2 * svg_M + (INR (Nat.max bot top) - 1) * svg_W)%R.
Definition svg_height : R := 35.
(** tl.py:574-575 *)
Definition numx (N bot v : nat) : nat := if v <? bot then v else N - v - 1.
(** tl.py:576-577 *)
Definition pos (N bot v : nat) : R * R :=
  ((svg_width bot (N - bot) / 2 + (0.5 + INR (numx N bot v) - INR (if v <? bot then bot else N - bot) / 2) * svg_W)%R,
   if v <? bot then svg_height else 0%R).
(** tl.py:590-601, one curve; abs(i - seq[i]) is the larger minus the smaller *)
Definition arc_curve (N bot i j : nat) : curve :=
  let '(sx, sy) := pos N bot i in
  let '(tx, ty) := pos N bot j in
  let dy := (if i <? bot then - svg_C else svg_C)%R in
  if ((i <? bot) && (j <? bot)) || ((bot <=? i) && (bot <=? j)) then
    let dist := (1 / (1 + exp (- INR (Nat.max i j - Nat.min i j) / 4)))%R in
    mkCurve sx sy sx (sy + dy * dist)%R tx (ty + dy * dist)%R tx ty
  else mkCurve sx sy sx (sy + dy)%R tx (ty - dy)%R tx ty.
(** tl.py:584-604, the loop body *)
Definition draw_step (s : list nat) (bot : nat) (st : list bool * list curve) (i : nat) : res (list bool * list curve) :=
  let '(drawn, path) := st in
  d <- get drawn i ;;
  if d then Ok (drawn, path) else
  j <- get s i ;;
  drawn <- set_ drawn i true ;;
  drawn <- set_ drawn j true ;;
  Ok (drawn, path ++ [arc_curve (length s) bot i j]).
(** tl.py:558-615 *)
Definition draw_svg (s : list nat) (bot : nat) : res picture :=
  _ <- assert_ (bot <=? length s) ;;
  '(_, path) <- foldM (draw_step s bot) (seq 0 (length s)) (repeat false (length s), []) ;;
  Ok (mkPicture (svg_width bot (length s - bot)) svg_height path).
