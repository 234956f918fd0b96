(** Model of coralign/occastro/occastro.py. Images and numbers are exact reals. *)
From Coq Require Import ZArith Bool List String Reals.
From Verif.Base Require Import Py Arr Vec Sums.
From Verif.Model Require Import Math Noll Fits Shapes Yaml DarkHole FocalFit PsfFit PupilUtil.
Import ListNotations.
Open Scope string_scope.
Open Scope Z_scope.

(** check.oneD_array(v, TypeError) followed by iterating over the values as degrees. Only flat lists of numbers get
    through: anything else is a TypeError (simplified: a ragged nested list is a ValueError in recent numpy). *)
Fixpoint numbers_ (l : list yval) : res (list R) :=
  match l with
  | [] => Ok []
  | v :: l' => do r <- real_scalar_ v; do rs <- numbers_ l'; Ok (r :: rs)
  end.
Definition number_list_ (v : yval) : res (list R) := match v with YList l => numbers_ l | _ => Err TypeError end.

(** occastro.py:111-131, 242-262: the mask of all regions of interest; [acc] starts as zeros. *)
Fixpoint roi_mask (image : arr R) (radius : R) (ns : Z) (sep x y : R) (angs : list R) (acc : arr R) : res (arr R) :=
  match angs with
  | [] => Ok acc
  | rotDeg :: l =>
      let rot := (PI / 180 * rotDeg)%R in
      do plus <- roi image radius (cos rot * sep + x) (sin rot * sep + y) ns;
      do minus <- roi image radius (cos (rot + PI) * sep + x) (sin (rot + PI) * sep + y) ns;
      roi_mask image radius ns sep x y l (amap2 Rplus (amap2 Rplus acc plus) minus)
  end.
(** np.sum(roiMask * spotArray) *)
Definition roi_cost (image : arr R) (radius : R) (ns : Z) (angs : list R) (sep x y : R) : res R :=
  do m <- roi_mask image radius ns sep x y angs (afull (nr image) (nc image) 0%R);
  Ok (masked_sum m image).
(** np.arange(nSteps)*stepSize - (nSteps-1)/2*stepSize + est *)
Definition steps_about (n : Z) (step est : R) : vec R :=
  Vec n (fun i => IZR i * step - (IZR n - 1) / 2 * step + est)%R.
(** A matrix filled row by row. *)
Fixpoint fill_mat (f : Z -> Z -> res R) (cols : nat) (k : Z) (rows : nat) : res (Z -> Z -> R) :=
  match rows with
  | O => Ok (fun _ _ => 0%R)
  | S rows' => do v <- fill_vec (f k) 0 cols;
               do r <- fill_mat f cols (k + 1) rows';
               Ok (fun i j => if i =? k then v j else r i j)
  end.

(** occastro.py:93-140, [k] passes from the estimate (x, y). *)
Fixpoint star_loop (lstsq : lstsq_fun) (cost : R -> R -> res R) (n : Z) (step : R) (k : nat) (x y : R) : res (R * R) :=
  match k with
  | O => Ok (x, y)
  | S k' =>
      let xs := steps_about n step x in                                       (* 98-105 *)
      let ys := steps_about n step y in
      do m <- fill_mat (fun iy ix => cost (vat xs ix) (vat ys iy)) (Z.to_nat n) 0 (Z.to_nat n);   (* 107-133 *)
      do o <- find_optimum_2d lstsq xs ys (Arr n n m) (afull n n 1%R);        (* 135-140 *)
      star_loop lstsq cost n step k' (fst o) (snd o)
  end.
(** occastro.py:8-142. [tuning] is the parsed YAML file; the other arguments have been checked (69-72). *)
Definition calc_star_location_from_spots (lstsq : lstsq_fun) (image : arr R) (xGuess yGuess : R) (tuning : yval) : res (R * R) :=
  do sep_ <- item tuning "spotSepPix";                                        (* 75-81 *)
  do radius_ <- item tuning "roiRadiusPix";
  do rot_ <- item tuning "probeRotVecDeg";
  do ns_ <- item tuning "nSubpixels";
  do steps_ <- item tuning "nSteps";
  do step_ <- item tuning "stepSize";
  do iter_ <- item tuning "nIter";
  do sep <- positive_scalar_ sep_;                                            (* 83-89 *)
  do radius <- positive_scalar_ radius_;
  do angs <- number_list_ rot_;
  do ns <- positive_int_ ns_;
  do nSteps <- positive_int_ steps_;
  do step <- positive_scalar_ step_;
  do nIter <- positive_int_ iter_;
  star_loop lstsq (fun xOff yOff => roi_cost image radius ns angs sep (xGuess + xOff) (yGuess + yOff))
    nSteps step (Z.to_nat nIter) 0 0.

(** occastro.py:232-272. [first] says whether this is the first of several passes. *)
Fixpoint sep_loop (lstsq : lstsq1_fun) (cost : R -> res R) (n : Z) (step : R) (first : bool) (k : nat) (sep : R) : res R :=
  match k with
  | O => Ok sep
  | S k' =>
      let v := steps_about n step sep in                                      (* 236-238 *)
      do c <- fill_vec (fun i => cost (vat v i)) 0 (Z.to_nat n);              (* 240-264 *)
      do s <- (if first then do b <- argmax2 (Arr 1 n (fun _ i => c i)); Ok (vat v (snd b))   (* 268-270 *)
               else find_optimum_1d lstsq v (Vec n c));                       (* 272 *)
      sep_loop lstsq cost n step false k' s
  end.
(** occastro.py:145-274 *)
Definition calc_spot_separation (lstsq : lstsq1_fun) (image : arr R) (xOffset yOffset : R) (tuning : yval) : res R :=
  do sep_ <- item tuning "spotSepGuessPix";                                   (* 214-220 *)
  do radius_ <- item tuning "roiRadiusPix";
  do rot_ <- item tuning "probeRotVecDeg";
  do ns_ <- item tuning "nSubpixels";
  do steps_ <- item tuning "nSteps";
  do step_ <- item tuning "stepSize";
  do iter_ <- item tuning "nIter";
  do sep <- positive_scalar_ sep_;                                            (* 222-228 *)
  do radius <- positive_scalar_ radius_;
  do angs <- number_list_ rot_;
  do ns <- positive_int_ ns_;
  do nSteps <- positive_int_ steps_;
  do step <- positive_scalar_ step_;
  do nIter <- positive_int_ iter_;
  sep_loop lstsq (fun s => roi_cost image radius ns angs s xOffset yOffset) nSteps step (1 <? nIter) (Z.to_nat nIter) sep.
