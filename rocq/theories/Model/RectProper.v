(** Model of rect_proper in coralign/util/shapes.py. Exact real arithmetic. *)
From Coq Require Import ZArith Bool List Reals.
From Flocq Require Import Core.Raux Core.Generic_fmt Core.Round_NE.
From Verif.Base Require Import Py Arr.
From Verif.Model Require Import Fits PadCrop Shapes.
Import ListNotations.
Open Scope Z_scope.

(** shapes.py:430-431: the corners before rotation, numbered 0 to 3. *)
Definition xp0 (xradpix : R) (k : Z) : R := if k <=? 1 then (- xradpix)%R else xradpix.
Definition yp0 (yradpix : R) (k : Z) : R := if (k =? 1) || (k =? 2) then yradpix else (- yradpix)%R.
(** np.min and np.max of a vector of four. *)
Definition min4 (f : Z -> R) : R := Rmin (Rmin (f 0) (f 1)) (Rmin (f 2) (f 3)).
Definition max4 (f : Z -> R) : R := Rmax (Rmax (f 0) (f 1)) (Rmax (f 2) (f 3)).
Definition eqR (x y : R) : bool := if Req_EM_T x y then true else false.
(** shapes.py:439-441: among the lowest corners the leftmost; np.min is attained, so the lists are not empty. *)
Definition first_corner (xp yp : Z -> R) : Z :=
  let left := filter (fun k => eqR (yp k) (min4 yp)) [0; 1; 2; 3] in        (* 439 *)
  let m := fold_right Rmin (xp (hd 0 left)) (map xp left) in
  hd 0 (filter (fun k => eqR (xp k) m) left).                               (* 440-441 *)
(** shapes.py:443-446 (and 474-478); 448-452 (and 480-485) *)
Definition next_left (k : Z) : Z := if negb (k =? 3) then k + 1 else 0.
Definition next_right (k : Z) : Z := if negb (k =? 0) then k - 1 else 3.

(** The variables of the loops. *)
Record scan := Scan { image : Z -> Z -> R; left : Z; leftnext : Z; right : Z; rightnext : Z }.
Definition add_at (img : Z -> Z -> R) (r c0 c1 : Z) (v : R) : Z -> Z -> R :=
  fun i j => if (i =? r) && (c0 <=? j) && (j <? c1) then (img i j + v)%R else img i j.
(** shapes.py:487-492 and 494-499: abscissa at height y of the line through corners k and k'. *)
Definition edge_x (xp yp : Z -> R) (k k' : Z) (y : R) : R :=
  let dy := (yp k' - yp k)%R in
  if eqR dy 0 then xp k else ((xp k' - xp k) / dy * (y - yp k) + xp k)%R.
(** shapes.py:501-525: one line of subpixels from xleft to xright is added to row [ypix]. *)
Definition paint (ngrid mag ypix : Z) (xleft xright : R) (img : Z -> Z -> R) : Z -> Z -> R :=
  let xl := ZnearestE xleft in                                              (* 501 *)
  let xr := ZnearestE xright in                                             (* 502 *)
  if negb (xl =? xr) then
    let img := if (0 <=? xl) && (xl <? ngrid)
               then add_at img ypix xl (xl + 1) (IZR mag * (IZR xl + / 2 - xleft)) else img in     (* 505-507 *)
    let img := if (0 <=? xr) && (xr <? ngrid)
               then add_at img ypix xr (xr + 1) (IZR mag * (xright - (IZR xr - / 2))) else img in  (* 508-510 *)
    if (1 <? xr - xl) && (xl + 1 <? ngrid) && (0 <? xr)                     (* 511 *)
    then add_at img ypix (if xl + 1 <? 0 then 0 else xl + 1) (if ngrid <? xr then ngrid else xr) (IZR mag)   (* 512-521 *)
    else img
  else if (0 <=? xl) && (xl <? ngrid)
       then add_at img ypix xl (xl + 1) (IZR mag * (xright - xleft)) else img.   (* 523-525 *)
(** shapes.py:473-525 *)
Definition scan_line (xp yp : Z -> R) (ngrid mag ypix : Z) (y : R) (s : scan) : scan :=
  let '(l, ln) := if Rleb (yp (leftnext s)) y then (leftnext s, next_left (leftnext s)) else (left s, leftnext s) in
  let '(r, rn) := if Rleb (yp (rightnext s)) y then (rightnext s, next_right (rightnext s)) else (right s, rightnext s) in
  Scan (paint ngrid mag ypix (edge_x xp yp l ln y) (edge_x xp yp r rn y) (image s)) l ln r rn.
(** shapes.py:466 *)
Definition sub_y (mag ypix ysub : Z) : R := (IZR ypix - / 2 + (/ 2 + IZR ysub) / IZR mag)%R.
(** shapes.py:465-525: lines [ysub], ..., of row [ypix], [n] of them. *)
Fixpoint sub_loop (xp yp : Z -> R) (ngrid mag ypix ysub : Z) (n : nat) (s : scan) : scan :=
  match n with
  | O => s
  | S n' =>
      let y := sub_y mag ypix ysub in
      if Rltb y (yp (left s)) then sub_loop xp yp ngrid mag ypix (ysub + 1) n' s   (* 468-469 *)
      else if Rltb (max4 yp) y then s                                       (* 470-471 *)
      else sub_loop xp yp ngrid mag ypix (ysub + 1) n' (scan_line xp yp ngrid mag ypix y s)
  end.
(** shapes.py:464-525. Lines 512-520 assign the names imin and imax again; the range of 464 is fixed before. *)
Fixpoint row_loop (xp yp : Z -> R) (ngrid mag ypix : Z) (n : nat) (s : scan) : scan :=
  match n with
  | O => s
  | S n' => row_loop xp yp ngrid mag (ypix + 1) n' (sub_loop xp yp ngrid mag ypix 0 (Z.to_nat mag) s)
  end.
(** shapes.py:369-532 *)
Definition rect_proper (nx ny : Z) (width height xOffset yOffset rot : R) (ns : Z) (isDark : bool) : res (arr R) :=
  check 0 <? nx else TypeError;                                             (* 405 *)
  check 0 <? ny else TypeError;                                             (* 406 *)
  check Rltb 0 width else TypeError;                                        (* 407 *)
  check Rltb 0 height else TypeError;                                       (* 408 *)
  check 0 <? ns else TypeError;                                             (* 412 *)
  let ngrid := Z.max nx ny in                                               (* 416 *)
  let xcpix := (xOffset + IZR (ngrid / 2))%R in                             (* 420 *)
  let ycpix := (yOffset + IZR (ngrid / 2))%R in                             (* 421 *)
  let a := (/ 2 * width)%R in let b := (/ 2 * height)%R in                  (* 424-425 *)
  let t := (rot * PI / 180)%R in                                            (* 428 *)
  let xp k := (xp0 a k * cos t - yp0 b k * sin t + xcpix)%R in              (* 434 *)
  let yp k := (xp0 a k * sin t + yp0 b k * cos t + ycpix)%R in              (* 435 *)
  let l := first_corner xp yp in
  let lo := ZnearestE (min4 yp) in let hi := ZnearestE (max4 yp) in
  let imin := if lo <? 0 then 0 else lo in                                  (* 454-457 *)
  let imax := if ngrid <=? hi + 1 then ngrid else hi + 1 in                 (* 459-462 *)
  let s := row_loop xp yp ngrid ns imin (Z.to_nat (imax - imin))
             (Scan (fun _ _ => 0%R) l (next_left l) l (next_right l)) in
  do out <- pad_crop (Arr ngrid ngrid (fun i j => image s i j / IZR ns ^ 2)%R) [ny; nx] 0%R;   (* 527-528 *)
  Ok (dark isDark out).                                                     (* 529-530 *)
