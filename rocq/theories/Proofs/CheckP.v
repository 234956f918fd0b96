From Coq Require Import ZArith Reals List String Bool Lia Lra Classical.
From Flocq Require Import Core BinarySingleNaN.
From Verif.Base Require Import Py F64.
From Verif.Model Require Import Check.
From Verif.Spec Require Import CheckSpec.
Import ListNotations.
Open Scope Z_scope.

Lemma fle0_spec f : fle f fzero = true <->
  (float_value f = NegInf \/ exists r, float_value f = Fin r /\ (r <= 0)%R).
Proof.
  destruct f as [s|s| |s m e B]; cbn.
  - split; [intros _; right; eexists; split; [reflexivity|lra]|destruct s; reflexivity].
  - destruct s; cbn; split; auto; try discriminate. intros [H|(r & H & _)]; discriminate.
  - split; [discriminate|]. intros [H|(r & H & _)]; discriminate.
  - destruct s; cbn.
    + split; auto. intros _. right. eexists; split; [reflexivity|].
      apply F2R_le_0. cbn. lia.
    + split; [discriminate|]. intros [H|(r & H & Hr)]; [discriminate|]. injection H as <-.
      assert (0 < F2R (Float radix2 (Zpos m) e))%R by (apply F2R_gt_0; cbn; lia). lra.
Qed.
Lemma flt0_spec f : flt f fzero = true <->
  (float_value f = NegInf \/ exists r, float_value f = Fin r /\ (r < 0)%R).
Proof.
  destruct f as [s|s| |s m e B]; cbn.
  - split; [destruct s; discriminate|]. intros [H|(r & H & Hr)]; [discriminate|].
    injection H as <-. lra.
  - destruct s; cbn; split; auto; try discriminate. intros [H|(r & H & _)]; discriminate.
  - split; [discriminate|]. intros [H|(r & H & _)]; discriminate.
  - destruct s; cbn.
    + split; auto. intros _. right. eexists; split; [reflexivity|].
      apply F2R_lt_0. cbn. lia.
    + split; [discriminate|]. intros [H|(r & H & Hr)]; [discriminate|]. injection H as <-.
      assert (0 < F2R (Float radix2 (Zpos m) e))%R by (apply F2R_gt_0; cbn; lia). lra.
Qed.

(** What the real checkers accept: the documented values, and NaN. *)
Definition acc_positive v := exists x, number v x /\ (positive x \/ x = NaN).
Definition acc_nonneg v := exists x, number v x /\ (nonnegative x \/ x = NaN).
Definition acc_real v := exists x, number v x.
Definition acc_posint v := exists z, integer v z /\ 0 < z.
Definition acc_nonnegint v := exists z, integer v z /\ 0 <= z.
Definition acc_int v := exists z, integer v z.

Lemma number_test v : (exists x, number v x) <-> (is_number v && isrealobj v = true).
Proof.
  split.
  - intros (x & H). destruct H; reflexivity.
  - destruct v; cbn; try discriminate; intros _; eexists; constructor.
Qed.
Lemma integer_test v : (exists x, integer v x) <-> (is_number v && is_int_types v = true).
Proof.
  split.
  - intros (x & H). destruct H; reflexivity.
  - destruct v; cbn; try discriminate; intros _; eexists; constructor.
Qed.

Lemma float_cases f : float_value f = NaN \/ float_value f = PosInf \/ float_value f = NegInf \/
  exists r, float_value f = Fin r.
Proof. destruct f as [s|[|]| |s m e B]; cbn; eauto. Qed.

Lemma num_le0_spec v x : number v x -> (num_le0 v = false <-> positive x \/ x = NaN).
Proof.
  intros H; destruct H as [b|z|z|f]; cbn.
  - destruct b; cbn; split; auto; try discriminate; [left; lra|]. intros [H|H]; [lra|discriminate].
  - rewrite Z.leb_gt. split.
    + intros; left; apply (IZR_lt 0); auto.
    + intros [H|H]; [apply lt_IZR; exact H|discriminate].
  - rewrite Z.leb_gt. split.
    + intros; left; apply (IZR_lt 0); auto.
    + intros [H|H]; [apply lt_IZR; exact H|discriminate].
  - pose proof (fle0_spec f) as S. rewrite <- not_true_iff_false.
    destruct (float_cases f) as [E|[E|[E|(r & E)]]]; rewrite E in *; cbn.
    + split; auto. intros _ K. apply S in K. destruct K as [K|(r & K & _)]; discriminate.
    + split; auto. intros _ K. apply S in K. destruct K as [K|(r & K & _)]; discriminate.
    + split; [intros K; exfalso; apply K, S; auto|]. intros [K|K]; [tauto|discriminate].
    + split.
      * intros K. left. apply Rnot_le_lt. intros L. apply K, S. right; eauto.
      * intros [K|K]; [|discriminate]. intros L. apply S in L.
        destruct L as [L|(r' & L & L')]; [discriminate|]. injection L as <-. lra.
Qed.
Lemma num_lt0_spec v x : number v x -> (num_lt0 v = false <-> nonnegative x \/ x = NaN).
Proof.
  intros H; destruct H as [b|z|z|f]; cbn.
  - destruct b; cbn; split; auto; left; lra.
  - rewrite Z.ltb_ge. split.
    + intros; left; apply (IZR_le 0); auto.
    + intros [H|H]; [apply le_IZR; exact H|discriminate].
  - rewrite Z.ltb_ge. split.
    + intros; left; apply (IZR_le 0); auto.
    + intros [H|H]; [apply le_IZR; exact H|discriminate].
  - pose proof (flt0_spec f) as S. rewrite <- not_true_iff_false.
    destruct (float_cases f) as [E|[E|[E|(r & E)]]]; rewrite E in *; cbn.
    + split; auto. intros _ K. apply S in K. destruct K as [K|(r & K & _)]; discriminate.
    + split; auto. intros _ K. apply S in K. destruct K as [K|(r & K & _)]; discriminate.
    + split; [intros K; exfalso; apply K, S; auto|]. intros [K|K]; [tauto|discriminate].
    + split.
      * intros K. left. apply Rnot_lt_le. intros L. apply K, S. right; eauto.
      * intros [K|K]; [|discriminate]. intros L. apply S in L.
        destruct L as [L|(r' & L & L')]; [discriminate|]. injection L as <-. lra.
Qed.
Lemma int_le0_spec v z : integer v z -> (num_le0 v = false <-> 0 < z).
Proof. intros []; cbn; [destruct b; cbn; split; auto; try discriminate; lia|lia|lia]. Qed.
Lemma int_lt0_spec v z : integer v z -> (num_lt0 v = false <-> 0 <= z).
Proof. intros []; cbn; [destruct b; cbn; split; auto; try discriminate; lia|lia|lia]. Qed.
Lemma number_fun v x y : number v x -> number v y -> x = y.
Proof. intros H K; destruct H; inversion K; reflexivity. Qed.
Lemma integer_fun v x y : integer v x -> integer v y -> x = y.
Proof. intros H K; destruct H; inversion K; reflexivity. Qed.

Lemma decides_from_bool f (b : pyval -> bool) P :
  (forall v s e, f v (VStr s) (VClass (ExcClass e)) = if b v then Ok v else Err e) ->
  (forall v, b v = true <-> P v) -> decides f P.
Proof.
  intros H K v s e. rewrite H. specialize (K v). destruct (b v).
  - split; auto. intros N; exfalso; apply N, K; auto.
  - split; auto. intros N. apply K in N. discriminate.
Qed.

Lemma real_positive_scalar_decides : decides real_positive_scalar acc_positive.
Proof.
  apply (decides_from_bool _ (fun v => is_number v && isrealobj v && negb (num_le0 v))).
  - intros. unfold real_positive_scalar. cbn [checkname checkexc is_string guard bind].
    unfold require, raise_with.
    destruct (is_number v), (isrealobj v), (negb (num_le0 v)); reflexivity.
  - intros v. rewrite andb_true_iff, negb_true_iff, <- number_test. split.
    + intros [(x & H) K]. exists x; split; auto. eapply num_le0_spec; eauto.
    + intros (x & H & K). split; eauto. eapply num_le0_spec; eauto.
Qed.
Lemma real_nonnegative_scalar_decides : decides real_nonnegative_scalar acc_nonneg.
Proof.
  apply (decides_from_bool _ (fun v => is_number v && isrealobj v && negb (num_lt0 v))).
  - intros. unfold real_nonnegative_scalar. cbn [checkname checkexc is_string guard bind].
    unfold require, raise_with.
    destruct (is_number v), (isrealobj v), (negb (num_lt0 v)); reflexivity.
  - intros v. rewrite andb_true_iff, negb_true_iff, <- number_test. split.
    + intros [(x & H) K]. exists x; split; auto. eapply num_lt0_spec; eauto.
    + intros (x & H & K). split; eauto. eapply num_lt0_spec; eauto.
Qed.
Lemma real_scalar_decides : decides real_scalar acc_real.
Proof.
  apply (decides_from_bool _ (fun v => is_number v && isrealobj v)).
  - intros. unfold real_scalar. cbn [checkname checkexc is_string guard bind].
    unfold require, raise_with. destruct (is_number v), (isrealobj v); reflexivity.
  - intros v. unfold acc_real. rewrite number_test. reflexivity.
Qed.
Lemma positive_scalar_integer_decides : decides positive_scalar_integer acc_posint.
Proof.
  apply (decides_from_bool _ (fun v => is_number v && is_int_types v && negb (num_le0 v))).
  - intros. unfold positive_scalar_integer. cbn [checkname checkexc is_string guard bind].
    unfold require, raise_with.
    destruct (is_number v), (is_int_types v), (negb (num_le0 v)); reflexivity.
  - intros v. rewrite andb_true_iff, negb_true_iff, <- integer_test. split.
    + intros [(x & H) K]. exists x; split; auto. eapply int_le0_spec; eauto.
    + intros (x & H & K). split; eauto. eapply int_le0_spec; eauto.
Qed.
Lemma nonnegative_scalar_integer_decides : decides nonnegative_scalar_integer acc_nonnegint.
Proof.
  apply (decides_from_bool _ (fun v => is_number v && is_int_types v && negb (num_lt0 v))).
  - intros. unfold nonnegative_scalar_integer. cbn [checkname checkexc is_string guard bind].
    unfold require, raise_with.
    destruct (is_number v), (is_int_types v), (negb (num_lt0 v)); reflexivity.
  - intros v. rewrite andb_true_iff, negb_true_iff, <- integer_test. split.
    + intros [(x & H) K]. exists x; split; auto. eapply int_lt0_spec; eauto.
    + intros (x & H & K). split; eauto. eapply int_lt0_spec; eauto.
Qed.
Lemma scalar_integer_decides : decides scalar_integer acc_int.
Proof.
  apply (decides_from_bool _ (fun v => is_number v && is_int_types v)).
  - intros. unfold scalar_integer. cbn [checkname checkexc is_string guard bind].
    unfold require, raise_with. destruct (is_number v), (is_int_types v); reflexivity.
  - intros v. unfold acc_int. rewrite integer_test. reflexivity.
Qed.
Lemma string_decides : decides string_ (fun v => (exists s, v = VStr s) \/ (exists s, v = VBytes s)).
Proof.
  apply (decides_from_bool _ is_string).
  - intros. unfold string_. cbn. unfold require, raise_with. destruct (is_string v); reflexivity.
  - intros v; destruct v; cbn; split; try discriminate; eauto;
      intros [(x & H)|(x & H)]; try discriminate; reflexivity.
Qed.
Lemma boolean_decides : decides boolean (fun v => exists b, v = VBool b).
Proof.
  apply (decides_from_bool _ is_bool).
  - intros. unfold boolean. cbn. unfold require, raise_with. destruct (is_bool v); reflexivity.
  - intros v; destruct v; cbn; split; try discriminate; eauto; intros (x & H); discriminate.
Qed.
Lemma dictionary_decides : decides dictionary (fun v => exists l, v = VDict l).
Proof.
  apply (decides_from_bool _ is_dict).
  - intros. unfold dictionary. cbn. unfold require, raise_with. destruct (is_dict v); reflexivity.
  - intros v; destruct v; cbn; split; try discriminate; eauto; intros (x & H); discriminate.
Qed.

(** ** numpy conversion *)
Fixpoint pyval_size (v : pyval) : nat :=
  match v with
  | VSeq l => S ((fix go l := match l with [] => O | x :: l' => S (pyval_size x + go l') end) l)
  | _ => O
  end.
Lemma in_size x l : In x l -> (pyval_size x < pyval_size (VSeq l))%nat.
Proof.
  induction l as [|y l IH]; cbn; [tauto|]. intros [->|H]; [lia|]. apply IH in H. cbn in H. lia.
Qed.

Lemma shape_eqb_spec a b : shape_eqb a b = true <-> a = b.
Proof.
  revert b; induction a as [|x a IH]; destruct b as [|y b]; cbn; split; try discriminate; auto.
  - rewrite andb_true_iff, Z.eqb_eq, IH. intros [-> ->]; reflexivity.
  - intros H; injection H as -> ->. rewrite Z.eqb_refl. cbn. apply IH; reflexivity.
Qed.

Lemma promote_rank a b : kind_rank (promote a b) = Z.max (kind_rank a) (kind_rank b).
Proof. unfold promote. destruct (Z.ltb_spec (kind_rank a) (kind_rank b)); lia. Qed.
Lemma promote_or a b : promote a b = a \/ promote a b = b.
Proof. unfold promote. destruct (_ <? _); auto. Qed.
Lemma kind_rank_inj a b : kind_rank a = kind_rank b -> a = b.
Proof. destruct a, b; cbn; congruence. Qed.

Definition np_seq := (fix go (l : list pyval) : res (kind * list Z) :=
         match l with
         | [] => Ok (KFloat, [0])
         | [x] => match np_array x with
                  | Ok (k, sh) => Ok (k, 1 :: sh)
                  | Err e => Err e
                  end
         | x :: l' =>
             match np_array x, go l' with
             | Ok (k, sh), Ok (k', n :: sh') =>
                 if shape_eqb sh sh' then Ok (promote k k', n + 1 :: sh) else Err ValueError
             | Ok _, Ok (_, []) => Err ValueError
             | Err e, _ => Err e
             | _, Err e => Err e
             end
         end).
Lemma np_array_seq l : np_array (VSeq l) = np_seq l.
Proof. reflexivity. Qed.
Lemma np_seq_cons x y l : np_seq (x :: y :: l) =
  match np_array x, np_seq (y :: l) with
  | Ok (k, sh), Ok (k', n :: sh') =>
      if shape_eqb sh sh' then Ok (promote k k', n + 1 :: sh) else Err ValueError
  | Ok _, Ok (_, []) => Err ValueError
  | Err e, _ => Err e
  | _, Err e => Err e
  end.
Proof. reflexivity. Qed.

Definition conv_spec (v : pyval) : Prop :=
  match np_array v with
  | Ok (k, sh) => shaped v sh /\ has_kind v k /\ (forall sh', shaped v sh' -> sh' = sh)
  | Err e => e = ValueError /\ forall sh, ~ shaped v sh
  end.

Lemma scalar_conv v k : np_array v = Ok (k, []) -> (forall l, v <> VSeq l) ->
  (forall k sh, v <> VArr k sh) -> leaf v k -> (forall k', leaf v k' -> k' = k) -> conv_spec v.
Proof.
  intros E H1 H2 L U. unfold conv_spec. rewrite E. split; [constructor; auto|split].
  - split; auto. intros k' L'. apply U in L'. subst; lia.
  - intros sh' S. inversion S; subst; auto.
    + exfalso; eapply H2; eauto.
    + exfalso; eapply H1; eauto.
    + exfalso; eapply H1; eauto.
Qed.

Lemma seq_conv l : l <> [] -> (forall x, In x l -> conv_spec x) ->
  match np_seq l with
  | Ok (k, n :: sh) => n = Z.of_nat (List.length l) /\ (forall x, In x l -> shaped x sh) /\
       (exists x, In x l /\ leaf x k) /\
       (forall x k', In x l -> leaf x k' -> kind_rank k' <= kind_rank k)
  | Ok (k, []) => False
  | Err e => e = ValueError /\ forall sh, ~ (forall x, In x l -> shaped x sh)
  end.
Proof.
  induction l as [|x l IH]; [congruence|]. intros _ Hall.
  pose proof (Hall x (or_introl eq_refl)) as Hx. unfold conv_spec in Hx.
  destruct l as [|y l].
  - cbn. destruct (np_array x) as [[k sh]|e].
    + destruct Hx as (S & (L & M) & U). repeat split; auto.
      * intros z [<-|[]]; auto.
      * exists x; auto.
      * intros z k' [<-|[]]; auto.
    + destruct Hx as [-> N]. split; auto. intros sh H. apply (N sh), H. auto.
  - rewrite np_seq_cons. specialize (IH ltac:(congruence) (fun z Hz => Hall z (or_intror Hz))).
    destruct (np_array x) as [[k sh]|e].
    2:{ destruct Hx as [-> N]. split; auto. intros sh H. apply (N sh), H. cbn; auto. }
    destruct Hx as (S & (L & M) & U).
    destruct (np_seq (y :: l)) as [[k' [|n sh']]|e].
    + contradiction.
    + destruct IH as (En & Sh & (z & Hz & Lz) & Mz).
      destruct (shape_eqb sh sh') eqn:Es.
      * apply shape_eqb_spec in Es. subst sh'. repeat split.
        -- rewrite En. cbn [List.length]. lia.
        -- intros w [<-|Hw]; auto.
        -- destruct (promote_or k k') as [->| ->]; [exists x; cbn; auto|exists z; cbn; auto].
        -- intros w k0 [<-|Hw] Lw; rewrite promote_rank.
           ++ apply M in Lw. lia.
           ++ apply (Mz w) in Lw; auto. lia.
      * split; auto. intros s H. assert (s = sh) by (apply U, H; cbn; auto). subst s.
        assert (Hy : conv_spec y) by (apply Hall; cbn; auto). unfold conv_spec in Hy.
        destruct (np_array y) as [[ky shy]|ey].
        -- destruct Hy as (_ & _ & Uy).
           assert (sh = shy) by (apply Uy, H; cbn; auto).
           assert (sh' = shy) by (apply Uy, Sh; cbn; auto). subst.
           assert (shape_eqb shy shy = true) by (apply shape_eqb_spec; auto). congruence.
        -- destruct Hy as [_ N]. apply (N sh), H; cbn; auto.
    + destruct IH as [-> N]. split; auto. intros s H. apply (N s). intros w Hw. apply H. cbn; auto.
Qed.

Lemma np_array_conv v : conv_spec v.
Proof.
  remember (pyval_size v) as n eqn:En. revert v En.
  induction n as [n IH] using (well_founded_induction lt_wf). intros v En.
  destruct v as [|b|z|z|b|f|re im|s|s|l|l|k sh|c|].
  1-9,11,13-14: (eapply scalar_conv; [reflexivity|congruence|congruence|constructor|];
      intros k' L; inversion L; reflexivity).
  - (* VSeq *)
    unfold conv_spec. rewrite np_array_seq. destruct l as [|x l].
    + cbn. repeat split; try constructor.
      * intros k' L. inversion L; subst; [cbn; lia|contradiction].
      * intros sh' S. inversion S; subst; auto; try congruence.
        exfalso. eapply H; reflexivity.
    + assert (Hall : forall y, In y (x :: l) -> conv_spec y).
      { intros y Hy. apply (IH (pyval_size y)); auto. subst n. apply in_size; auto. }
      pose proof (seq_conv (x :: l) ltac:(congruence) Hall) as G.
      destruct (np_seq (x :: l)) as [[k [|m sh]]|e]; [contradiction| |].
      * destruct G as (-> & Sh & (z & Hz & Lz) & Mz). repeat split.
        -- apply shaped_seq; auto; congruence.
        -- eapply leaf_seq; eauto.
        -- intros k' L. inversion L; subst. eapply Mz; eauto.
        -- intros sh' S. inversion S; subst.
           ++ exfalso. eapply H; reflexivity.
           ++ f_equal. pose proof (Hall x (or_introl eq_refl)) as Cx. unfold conv_spec in Cx.
              destruct (np_array x) as [[kx shx]|ex].
              ** destruct Cx as (_ & _ & U). rewrite (U sh0), (U sh) by (auto with datatypes).
                 reflexivity.
              ** exfalso. destruct Cx as [_ N]. apply (N sh). auto with datatypes.
      * destruct G as [-> N]. split; auto. intros sh S. inversion S; subst.
        -- eapply H; reflexivity.
        -- eapply N; eauto.
  - unfold conv_spec. cbn. repeat split; try constructor.
    + intros k' L; inversion L; subst; lia.
    + intros sh' S; inversion S; subst; auto. exfalso; eapply H0; reflexivity.
Qed.

Lemma has_kind_fun v k k' : has_kind v k -> has_kind v k' -> k = k'.
Proof. intros [L M] [L' M']. apply kind_rank_inj. apply M in L'. apply M' in L. lia. Qed.

Lemma rank_array_decides r v s e :
  (forall sh, shaped v sh -> Z.of_nat (List.length sh) = r ->
     exists k, has_kind v k /\ rank_array r v (VStr s) (VClass (ExcClass e)) = Ok (VArr k sh)) /\
  (forall sh, shaped v sh -> Z.of_nat (List.length sh) <> r ->
     rank_array r v (VStr s) (VClass (ExcClass e)) = Err e) /\
  ((forall sh, ~ shaped v sh) -> rank_array r v (VStr s) (VClass (ExcClass e)) = Err ValueError).
Proof.
  pose proof (np_array_conv v) as C. unfold conv_spec in C. unfold rank_array.
  cbn [checkname checkexc is_string guard bind].
  destruct (np_array v) as [[k sh]|e'] eqn:E; cbn [bind].
  - destruct C as (S & K & U). unfold require, raise_with.
    split; [|split].
    + intros sh' S' R. apply U in S'. subst sh'. exists k; split; auto.
      rewrite R, Z.eqb_refl. destruct (is_complex_kind k); reflexivity.
    + intros sh' S' R. apply U in S'. subst sh'.
      destruct (Z.eqb_spec (Z.of_nat (List.length sh)) r); [contradiction|reflexivity].
    + intros N. exfalso. eapply N; eauto.
  - destruct C as [-> N]. split; [|split]; auto; intros sh' S' _; exfalso; eapply N; eauto.
Qed.

Lemma square_array_decides v s e :
  (forall n, shaped v [n; n] ->
     exists k, has_kind v k /\
       twoD_square_array v (VStr s) (VClass (ExcClass e)) = Ok (VArr k [n; n])) /\
  (forall sh, shaped v sh -> (forall n, sh <> [n; n]) ->
     twoD_square_array v (VStr s) (VClass (ExcClass e)) = Err e) /\
  ((forall sh, ~ shaped v sh) ->
     twoD_square_array v (VStr s) (VClass (ExcClass e)) = Err ValueError).
Proof.
  pose proof (np_array_conv v) as C. unfold conv_spec in C. unfold twoD_square_array.
  cbn [checkname checkexc is_string guard bind].
  destruct (np_array v) as [[k sh]|e'] eqn:E; cbn [bind].
  - destruct C as (S & K & U). unfold require, raise_with.
    split; [|split].
    + intros n S'. apply U in S'. subst sh. exists k; split; auto.
      rewrite Z.eqb_refl. destruct (is_complex_kind k); reflexivity.
    + intros sh' S' R. apply U in S'. subst sh'.
      destruct sh as [|a [|b [|c sh]]]; auto.
      destruct (Z.eqb_spec a b); [subst; exfalso; eapply R; eauto|reflexivity].
    + intros N. exfalso. eapply N; eauto.
  - destruct C as [-> N]. split; [|split]; auto.
    + intros n S'; exfalso; eapply N; eauto.
    + intros sh' S' _; exfalso; eapply N; eauto.
Qed.

Lemma real_array_decides v s e :
  (forall sh k, shaped v sh -> sh <> [] -> has_kind v k -> k <> KComplex ->
     real_array v (VStr s) (VClass (ExcClass e)) = Ok (VArr k sh)) /\
  (forall sh k, shaped v sh -> has_kind v k -> sh = [] \/ k = KComplex ->
     real_array v (VStr s) (VClass (ExcClass e)) = Err e) /\
  ((forall sh, ~ shaped v sh) -> real_array v (VStr s) (VClass (ExcClass e)) = Err ValueError).
Proof.
  pose proof (np_array_conv v) as C. unfold conv_spec in C. unfold real_array.
  cbn [checkname checkexc is_string guard bind].
  destruct (np_array v) as [[k sh]|e'] eqn:E; cbn [bind].
  - destruct C as (S & K & U). unfold require, raise_with.
    split; [|split].
    + intros sh' k' S' R K' NC. apply U in S'. subst sh'.
      rewrite (has_kind_fun _ _ _ K' K) in *. destruct sh; [congruence|]. cbn [List.length].
      destruct (Z.eqb_spec (Z.of_nat (Datatypes.S (List.length sh))) 0); [lia|]. cbn.
      destruct k; cbn; try reflexivity; congruence.
    + intros sh' k' S' K' R. apply U in S'. subst sh'.
      rewrite (has_kind_fun _ _ _ K' K) in *. destruct R as [->| ->]; [reflexivity|].
      cbn. destruct (_ =? _); reflexivity.
    + intros N. exfalso. eapply N; eauto.
  - destruct C as [-> N]. split; [|split]; auto; intros sh' k' S'; exfalso; eapply N; eauto.
Qed.

(** Bad names and classes. *)
Lemma all_checkers_reject_bad_name f v n e :
  In f [real_positive_scalar; real_array; oneD_array; twoD_array; twoD_square_array; threeD_array;
        real_scalar; real_nonnegative_scalar; positive_scalar_integer; nonnegative_scalar_integer;
        scalar_integer; string_; boolean; dictionary] ->
  is_string n = false \/ (forall x, e <> VClass (ExcClass x)) -> f v n e = Err CheckException.
Proof.
  intros Hf H.
  assert (G : forall (k : exn -> res pyval),
     (do _u <- checkname n; do x <- checkexc e; k x) = Err CheckException).
  { intros k. unfold checkname, guard. destruct H as [->|H]; [reflexivity|].
    destruct (is_string n); [|reflexivity]. cbn. destruct e; try reflexivity.
    destruct c; try reflexivity. exfalso; eapply H; reflexivity. }
  cbn [In] in Hf. repeat (destruct Hf as [<-|Hf]; [apply G|]). contradiction.
Qed.

Lemma rank_arrays_decide : forall f r,
  In (f, r) [(oneD_array, 1); (twoD_array, 2); (threeD_array, 3)] -> forall v s e,
  (forall sh, shaped v sh -> Z.of_nat (List.length sh) = r ->
     exists k, has_kind v k /\ f v (VStr s) (VClass (ExcClass e)) = Ok (VArr k sh)) /\
  (forall sh, shaped v sh -> Z.of_nat (List.length sh) <> r ->
     f v (VStr s) (VClass (ExcClass e)) = Err e) /\
  ((forall sh, ~ shaped v sh) -> f v (VStr s) (VClass (ExcClass e)) = Err ValueError).
Proof.
  intros f r [H|[H|[H|[]]]] v s e; injection H as <- <-; apply rank_array_decides.
Qed.

Lemma check_refuted :
  real_positive_scalar (VFloat fnan) (VStr "x") (VClass (ExcClass KeyError)) = Ok (VFloat fnan) /\
  twoD_array (VSeq [VSeq [VInt 1]; VSeq [VInt 1; VInt 2]]) (VStr "a") (VClass (ExcClass KeyError))
    = Err ValueError /\
  real_positive_scalar (VInt (-1)) (VBytes "x") (VClass (ExcClass KeyError)) = Err TypeError /\
  real_array (VSeq [VStr "a"]) (VStr "a") (VClass (ExcClass KeyError)) = Ok (VArr KStr [1]).
Proof. repeat split; reflexivity. Qed.
