(** C36, C37, C54: dark-hole masks and YAML loading. *)
From Coq Require Import ZArith Bool List String Reals Lra Lia Permutation.
From Verif.Base Require Import Py Arr.
From Verif.Model Require Import Yaml DarkHole.
From Verif.Spec Require Import ShapesSpec DarkHoleSpec.
From Verif.Proofs Require Import DarkHoleP.
Import ListNotations.
Open Scope string_scope.
Open Scope Z_scope.

(** ** C36 union of shapes *)
Theorem C36_union_partial : forall v n m shapes, describes_hole v n m shapes -> exists k, gen_dark_hole v = Ok k /\
   mask_rows k = n /\ mask_cols k = m /\
   (shapes = [] -> k = FloatMask (afull n m 0%R)) /\ (shapes <> [] -> mask_bool k) /\
   forall i j, 0 <= i < n -> 0 <= j < m -> (mask_true k i j <-> Exists (fun s => in_shape s (px m 0 j) (px n 0 i)) shapes).
Proof. exact dark_hole_ok. Qed.
Print Assumptions C36_union_partial.
Theorem C36_only_valid_files : forall v k, gen_dark_hole v = Ok k -> exists n m shapes, describes_hole v n m shapes.
Proof. exact dark_hole_inv. Qed.
Print Assumptions C36_only_valid_files.
Theorem C36_order_irrelevant : forall v v' n m shapes shapes' k k', describes_hole v n m shapes -> describes_hole v' n m shapes' ->
  Permutation shapes shapes' -> gen_dark_hole v = Ok k -> gen_dark_hole v' = Ok k' ->
  mask_rows k = mask_rows k' /\ mask_cols k = mask_cols k' /\ (mask_bool k <-> mask_bool k') /\
  forall i j, 0 <= i < n -> 0 <= j < m -> (mask_true k i j <-> mask_true k' i j).
Proof. exact dark_hole_order. Qed.
Print Assumptions C36_order_irrelevant.
Theorem C36_invalid_shape_name : forall v n m pre key w post shapes, has_int v "nRows" n -> has_int v "nCols" m -> 0 < n -> 0 < m ->
  has v "shapes" (YDict (pre ++ (key, w) :: post)) ->
  Forall2 (fun kv s => describes (snd kv) s /\ shape_valid s) pre shapes ->
  (exists x y name, has w "xOffset" x /\ has w "yOffset" y /\ has w "shape" name /\
     ~ In name [YStr "rectangle"; YStr "annulus"; YStr "annular_sector"; YStr "bowtie"]) ->
  gen_dark_hole v = Err ValueError.
Proof. exact dark_hole_bad_name. Qed.
Print Assumptions C36_invalid_shape_name.
Theorem C36_from_file : forall {path file} (open_ : path -> outcome file) safe_load p,
  (forall f v, open_ p = Returns f -> safe_load f = Returns v -> gen_dark_hole_from_yaml open_ safe_load p = inl (gen_dark_hole v)) /\
  (forall c, (open_ p = Raises c \/ exists f, open_ p = Returns f /\ safe_load f = Raises c) ->
     derives c COSError \/ derives c CYAMLError \/ derives c CUnicodeDecodeError ->
     gen_dark_hole_from_yaml open_ safe_load p = inl (Err OSError)).
Proof. intros path file. exact dark_hole_file. Qed.
Print Assumptions C36_from_file.
(** A file with an empty dictionary of shapes is accepted and gives a mask that is not boolean. *)
Theorem C36_always_boolean_refuted : describes_hole (YDict [("nRows", YInt 3); ("nCols", YInt 4); ("shapes", YDict [])]) 3 4 [] /\
  exists k, gen_dark_hole (YDict [("nRows", YInt 3); ("nCols", YInt 4); ("shapes", YDict [])]) = Ok k /\ ~ mask_bool k.
Proof. exact empty_hole. Qed.
Print Assumptions C36_always_boolean_refuted.
Definition hole_ex : yval := YDict [("nRows", YInt 20); ("nCols", YInt 21); ("shapes", YDict
  [("a", YDict [("shape", YStr "rectangle"); ("xOffset", YInt 1); ("yOffset", YInt 0); ("width", YInt 3); ("height", YInt 2)]);
   ("b", YDict [("shape", YStr "bowtie"); ("xOffset", YInt 0); ("yOffset", YInt 0); ("radiusInner", YInt 3); ("radiusOuter", YInt 9);
                ("openingAngle", YInt 65); ("clocking", YInt 90)])])].
Example C36_ex : describes_hole hole_ex 20 21 [Rectangle 1 0 3 2; Bowtie 0 0 3 9 65 90].
Proof.
  assert (H : forall v k x, item v k = Ok x -> has v k x) by (intros; apply item_has; auto).
  split; [exists (YInt 20); split; [apply H; reflexivity|constructor]|].
  split; [exists (YInt 21); split; [apply H; reflexivity|constructor]|]. split; [lia|]. split; [lia|].
  eexists. split; [apply H; reflexivity|]. constructor; [|constructor; [|constructor]]; cbn [snd].
  - split; [constructor; try (eexists; split; [apply H; reflexivity|constructor]); apply H; reflexivity|cbn; lra].
  - split; [constructor; try (eexists; split; [apply H; reflexivity|constructor]); apply H; reflexivity|cbn; lra].
Qed.

(** ** C37 geometry *)
Theorem C37_rectangle : forall nR nC X Y W H n m xo yo w h,
  is_int nR n -> is_int nC m -> 0 < n -> 0 < m -> is_real X xo -> is_real Y yo -> is_real W w -> is_real H h ->
  (0 < w)%R -> (0 < h)%R -> exists a, gen_rectangle nR nC X Y W H = Ok a /\ good n m a (Rectangle xo yo w h).
Proof. exact rectangle_good. Qed.
Print Assumptions C37_rectangle.
Theorem C37_annulus : forall nR nC X Y Ri Ro n m xo yo ri ro,
  is_int nR n -> is_int nC m -> 0 < n -> 0 < m -> is_real X xo -> is_real Y yo -> is_real Ri ri -> is_real Ro ro ->
  (0 <= ri <= ro)%R -> exists a, gen_annulus nR nC X Y Ri Ro = Ok a /\ good n m a (Annulus xo yo ri ro).
Proof. exact annulus_good. Qed.
Print Assumptions C37_annulus.
Theorem C37_sector : forall nR nC X Y Ri Ro Op Cl n m xo yo ri ro op cl,
  is_int nR n -> is_int nC m -> 0 < n -> 0 < m -> is_real X xo -> is_real Y yo -> is_real Ri ri -> is_real Ro ro ->
  is_real Op op -> is_real Cl cl -> (0 <= ri <= ro)%R -> (0 < op)%R ->
  exists a, gen_annular_sector nR nC X Y Ri Ro Op Cl = Ok a /\ good n m a (Sector xo yo ri ro op cl).
Proof. exact sector_good. Qed.
Print Assumptions C37_sector.
Theorem C37_bowtie : forall nR nC X Y Ri Ro Op Cl n m xo yo ri ro op cl,
  is_int nR n -> is_int nC m -> 0 < n -> 0 < m -> is_real X xo -> is_real Y yo -> is_real Ri ri -> is_real Ro ro ->
  is_real Op op -> is_real Cl cl -> (0 <= ri <= ro)%R -> (0 < op)%R ->
  exists a, gen_bowtie nR nC X Y Ri Ro Op Cl = Ok a /\ good n m a (Bowtie xo yo ri ro op cl).
Proof. exact bowtie_good. Qed.
Print Assumptions C37_bowtie.
Theorem C37_bowtie_point_symmetric : forall nR nC X Y Ri Ro Op Cl n m xo yo ri ro op cl a,
  is_int nR n -> is_int nC m -> 0 < n -> 0 < m -> is_real X xo -> is_real Y yo -> is_real Ri ri -> is_real Ro ro ->
  is_real Op op -> is_real Cl cl -> (0 <= ri <= ro)%R -> (0 < op)%R ->
  gen_bowtie nR nC X Y Ri Ro Op Cl = Ok a ->
  forall i j i' j', in_arr a i j -> in_arr a i' j' -> px m xo j' = (- px m xo j)%R -> px n yo i' = (- px n yo i)%R ->
  at2 a i' j' = at2 a i j.
Proof. exact bowtie_symmetric_masks. Qed.
Print Assumptions C37_bowtie_point_symmetric.
Theorem C37_full_opening_is_annulus : forall nR nC X Y Ri Ro Op Cl n m xo yo ri ro op cl a b,
  is_int nR n -> is_int nC m -> 0 < n -> 0 < m -> is_real X xo -> is_real Y yo -> is_real Ri ri -> is_real Ro ro ->
  is_real Op op -> is_real Cl cl -> (0 <= ri <= ro)%R -> (360 <= op)%R ->
  gen_annular_sector nR nC X Y Ri Ro Op Cl = Ok a -> gen_annulus nR nC X Y Ri Ro = Ok b -> aeq a b.
Proof. exact full_sector_masks. Qed.
Print Assumptions C37_full_opening_is_annulus.
Theorem C37_radii_in_wrong_order : forall nR nC X Y Ri Ro n m xo yo ri ro,
  is_int nR n -> is_int nC m -> 0 < n -> 0 < m -> is_real X xo -> is_real Y yo -> is_real Ri ri -> is_real Ro ro ->
  (0 <= ro < ri)%R ->
  gen_annulus nR nC X Y Ri Ro = Err ValueError /\
  forall Op Cl, gen_annular_sector nR nC X Y Ri Ro Op Cl = Err ValueError /\ gen_bowtie nR nC X Y Ri Ro Op Cl = Err ValueError.
Proof. exact bad_radii. Qed.
Print Assumptions C37_radii_in_wrong_order.
Example C37_ex : is_int (YInt 20) 20 /\ is_int (YInt 21) 21 /\ is_real (YReal (3/2)) (3/2) /\ (0 <= 3 <= 9)%R /\ (0 < 65)%R.
Proof. repeat split; try constructor; lra. Qed.

(** ** C54 loadyaml *)
Theorem C54_failures_use_custom_exception : forall {path file E : Type} (open_ : path -> outcome file) safe_load p (custom : E),
  (forall f v, open_ p = Returns f -> safe_load f = Returns v -> loadyaml open_ safe_load p custom = inl v) /\
  (forall c, open_ p = Raises c \/ (exists f, open_ p = Returns f /\ safe_load f = Raises c) ->
     ((derives c COSError \/ derives c CYAMLError \/ derives c CUnicodeDecodeError) ->
        loadyaml open_ safe_load p custom = inr (CustomException custom)) /\
     (~ derives c COSError -> ~ derives c CYAMLError -> ~ derives c CUnicodeDecodeError ->
        loadyaml open_ safe_load p custom = inr (Original c))).
Proof. intros path file E. exact loadyaml_spec. Qed.
Print Assumptions C54_failures_use_custom_exception.
Theorem C54_value_only_from_file : forall {path file E : Type} (open_ : path -> outcome file) safe_load p (custom : E) v,
  loadyaml open_ safe_load p custom = inl v -> exists f, open_ p = Returns f /\ safe_load f = Returns v.
Proof. intros path file E. exact loadyaml_inv. Qed.
Print Assumptions C54_value_only_from_file.
Example C54_ex : derives CFileNotFoundError COSError /\ derives CScannerError CYAMLError /\ derives CReaderError CYAMLError /\
  ~ derives CValueError CYAMLError /\ ~ derives CValueError CUnicodeDecodeError.
Proof. rewrite <- !isa_derives. repeat split; try reflexivity; intros H; vm_compute in H; discriminate. Qed.
