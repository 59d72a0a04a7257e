(** Microphone and grid positions in XML files, and the centre and aperture of an array: MicGeom in
    /repo/acoular/microphones.py and ImportGrid in /repo/acoular/grids.py. *)
From Coq Require Import List Arith Lia ZArith Bool String Reals Lra.
From Verif Require Import Stream Sources.
Import ListNotations.
Local Open Scope R_scope.

Definition point : Type := R * R * R.

(** A parsed document: elements with a tag, attributes and children; texts are left out. *)
Inductive element := Elem (tag : string) (attributes : list (string * string)) (children : list element).
Definition tag_of (e : element) : string := let 'Elem t _ _ := e in t.
Definition attributes_of (e : element) : list (string * string) := let 'Elem _ a _ := e in a.
Definition children_of (e : element) : list element := let 'Elem _ _ c := e in c.

(** xml.dom.minidom: doc.getElementsByTagName(name), the elements below the document, parents before their children *)
Fixpoint by_tag (name : string) (e : element) : list element :=
  match e with
  | Elem t a c => (if String.eqb t name then [Elem t a c] else []) ++ flat_map (by_tag name) c
  end.
(** el.getAttribute(name): the empty string if there is none *)
Fixpoint attribute (l : list (string * string)) (name : string) : string :=
  match l with
  | [] => EmptyString
  | (k, v) :: l' => if String.eqb k name then v else attribute l' name
  end.

Definition contains (part s : string) : bool :=
  match String.index 0 part s with Some _ => true | None => false end.

Section Text.
  (** float(text), ValueError for [None]; the text of a float in an f-string, which Python chooses such that
      float() gives the number back *)
  Variable float_of : string -> option R.
  Variable text_of : R -> string.
  Variable number : nat -> string.

  (** [float(el.getAttribute(a)) for a in 'xyz'] (microphones.py:223, grids.py:926) *)
  Definition xyz_of (e : element) : option point :=
    match float_of (attribute (attributes_of e) "x"), float_of (attribute (attributes_of e) "y"),
          float_of (attribute (attributes_of e) "z") with
    | Some x, Some y, Some z => Some (x, y, z)
    | _, _, _ => None
    end.
  Fixpoint all_xyz (l : list element) : option (list point) :=
    match l with
    | [] => Some []
    | e :: l' => match xyz_of e, all_xyz l' with Some p, Some r => Some (p :: r) | _, _ => None end
    end.

  (** MicGeom._import_mpos, microphones.py:190-224.  array([]) has one axis only, so that swapaxes raises AxisError, a
      ValueError, for a document without positions. *)
  Definition import_mpos (doc : element) : list point + exn :=
    match all_xyz (by_tag "pos" doc) with
    | None => inr ValueError
    | Some [] => inr ValueError
    | Some l => inl l
    end.

  (** ImportGrid.import_gpos, grids.py:803-928: positions and the names of the subgrids *)
  Definition import_gpos (doc : element) : (list point * list string) + exn :=
    let els := by_tag "pos" doc in
    match all_xyz els with
    | None => inr ValueError
    | Some [] => inr ValueError
    | Some l => inl (l, map (fun e => attribute (attributes_of e) "subgrid") els)
    end.

  (** MicGeom.export_mpos, microphones.py:226-262, of the valid microphones: the document that a parser reads from what is written.
      The name of the file stands unescaped in an attribute: [None] where a ['<'] or an ampersand in front of a space makes the file
      malformed.  (Other names with an ampersand or a quotation mark are left out of the theorems.) *)
  Definition pos_element (i : nat) (p : point) : element :=
    let '(x, y, z) := p in
    Elem "pos" [("Name", "Point " ++ number (i + 1)); ("x", text_of x); ("y", text_of y); ("z", text_of z)]%string [].
  Definition export_mpos (pos_total : list point) (invalid : list Z) (basename : string) : option element + exn :=
    match micgeom_pos pos_total invalid with
    | inr e => inr e
    | inl pos =>
        inl (if contains "<" basename || contains "& " basename then None
             else Some (Elem "MicArray" [("name", basename)%string]
                          (map (fun ip => pos_element (fst ip) (snd ip)) (combine (seq 0 (List.length pos)) pos))))
    end.
End Text.

(** pos.any() *)
Definition nonzero (p : point) : bool :=
  let '(x, y, z) := p in
  if Req_EM_T x 0 then if Req_EM_T y 0 then if Req_EM_T z 0 then false else true else true else true.
Definition coord (a : nat) (p : point) : R :=
  let '(x, y, z) := p in match a with 0%nat => x | 1%nat => y | _ => z end.
Definition rsum (l : list R) : R := fold_right Rplus 0 l.
Definition mean (l : list R) : R := rsum l / INR (List.length l).
Definition flush (eps x : R) : R := if Rlt_dec (Rabs x) eps then 0 else x.

(** MicGeom._get_center, microphones.py:174-181; [None] where the code returns None *)
Definition center (pos : list point) : option point :=
  if existsb nonzero pos
  then let c a := flush (/ 10 ^ 16) (mean (map (coord a) pos)) in Some (c 0%nat, c 1%nat, c 2%nat)
  else None.

Definition pdist (p q : point) : R :=
  sqrt ((coord 0 p - coord 0 q) * (coord 0 p - coord 0 q) + (coord 1 p - coord 1 q) * (coord 1 p - coord 1 q)
        + (coord 2 p - coord 2 q) * (coord 2 p - coord 2 q)).
(** MicGeom._get_aperture, microphones.py:183-187: cdist(...).max() *)
Definition aperture (pos : list point) : option R :=
  if existsb nonzero pos
  then Some (fold_right Rmax 0 (flat_map (fun p => map (pdist p) pos) pos))
  else None.

(** * Lemmas *)
Lemma fold_max_ge l x : In x l -> x <= fold_right Rmax 0 l.
Proof.
  induction l as [|y l IH]; [intros []|]. intros [->|H]; cbn; [apply Rmax_l|]. apply Rle_trans with (1 := IH H). apply Rmax_r.
Qed.
Lemma fold_max_in l : (forall x, In x l -> 0 <= x) -> l <> [] -> In (fold_right Rmax 0 l) l.
Proof.
  induction l as [|y l IH]; intros H N; [congruence|]. cbn [fold_right].
  destruct (Rle_dec y (fold_right Rmax 0 l)) as [L|L]; [|rewrite Rmax_left by lra; now left].
  rewrite Rmax_right by exact L. destruct l as [|z l].
  - cbn in *. left. assert (0 <= y) by (apply H; now left). lra.
  - right. apply IH; [|discriminate]. intros x Hx. apply H. now right.
Qed.
Lemma pdist_nonneg p q : 0 <= pdist p q.
Proof. apply sqrt_pos. Qed.

Lemma nonzero_coord p : nonzero p = true <-> exists a, coord a p <> 0.
Proof.
  destruct p as [[x y] z]. cbn [nonzero coord]. destruct (Req_EM_T x 0) as [->|X]; [|split; [now exists 0%nat|reflexivity]].
  destruct (Req_EM_T y 0) as [->|Y]; [|split; [now exists 1%nat|reflexivity]].
  destruct (Req_EM_T z 0) as [->|Z]; [|split; [now exists 2%nat|reflexivity]].
  split; [discriminate|]. intros ([|[|a]] & H); lra.
Qed.
Lemma some_nonzero pos : (exists p a, In p pos /\ coord a p <> 0) -> existsb nonzero pos = true.
Proof. intros (p & a & P & H). apply existsb_exists. exists p. split; [exact P|]. apply nonzero_coord. now exists a. Qed.
Lemma center_some pos : (exists p a, In p pos /\ coord a p <> 0) ->
  center pos = Some (flush (/ 10 ^ 16) (mean (map (coord 0) pos)), flush (/ 10 ^ 16) (mean (map (coord 1) pos)),
                     flush (/ 10 ^ 16) (mean (map (coord 2) pos))).
Proof. intros E. unfold center. now rewrite some_nonzero. Qed.
Lemma flush_near eps x : 0 < eps -> Rabs (x - flush eps x) < eps.
Proof.
  intros E. unfold flush. destruct (Rlt_dec (Rabs x) eps) as [L|L]; [now rewrite Rminus_0_r|].
  rewrite Rminus_diag_eq, Rabs_R0 by reflexivity. exact E.
Qed.
Lemma rsum_shift a f (l : list point) :
  rsum (map (fun p => coord a p - f) l) = rsum (map (coord a) l) - INR (List.length l) * f.
Proof.
  induction l as [|p l IH]; [cbn; ring|]. cbn [map List.length]. rewrite S_INR. unfold rsum in *. cbn [fold_right]. rewrite IH. ring.
Qed.
Lemma mean_between lo hi l : l <> [] -> (forall x, In x l -> lo <= x <= hi) -> lo <= mean l <= hi.
Proof.
  intros N H. assert (P : 0 < INR (List.length l)) by (apply lt_0_INR; destruct l; [congruence|cbn; lia]).
  assert (B : INR (List.length l) * lo <= rsum l <= INR (List.length l) * hi).
  { clear N P. induction l as [|x l IH]; [cbn; lra|]. cbn [List.length]. rewrite S_INR. unfold rsum in *. cbn [fold_right].
    assert (lo <= x <= hi) by (apply H; now left). assert (forall y, In y l -> lo <= y <= hi) as H' by (intros y Y; apply H; now right).
    specialize (IH H'). lra. }
  unfold mean, Rdiv. split; apply Rmult_le_reg_r with (INR (List.length l)); try exact P; rewrite Rmult_assoc, Rinv_l by lra; lra.
Qed.

Inductive below : element -> element -> Prop :=
  | below_self e : below e e
  | below_child e c d : In c (children_of e) -> below c d -> below e d.

Section ElementInd.
  Variable P : element -> Prop.
  Hypothesis step : forall t a c, Forall P c -> P (Elem t a c).
  Fixpoint element_all (e : element) : P e :=
    match e with
    | Elem t a c =>
        step t a c ((fix go l := match l return Forall P l with [] => Forall_nil P | x :: l' => Forall_cons x (element_all x) (go l') end) c)
    end.
End ElementInd.

Lemma by_tag_below name e : forall d, In d (by_tag name e) <-> below e d /\ tag_of d = name.
Proof.
  induction e as [t a c IH] using element_all. intros d. cbn [by_tag]. rewrite in_app_iff, in_flat_map. split.
  - intros [H|(x & X & H)].
    + destruct (String.eqb t name) eqn:E; [|destruct H]. destruct H as [<-|[]]. apply String.eqb_eq in E. split; [constructor|exact E].
    + rewrite Forall_forall in IH. apply (IH x X) in H. destruct H as [B T]. split; [|exact T]. now apply below_child with x.
  - intros [B T]. inversion B as [|? x ? X B']; subst.
    + left. cbn [tag_of]. rewrite String.eqb_refl. now left.
    + right. exists x. split; [exact X|]. rewrite Forall_forall in IH. now apply (IH x X).
Qed.

Lemma by_tag_flat name t a c : t <> name -> (forall e, In e c -> children_of e = []) ->
  by_tag name (Elem t a c) = filter (fun e => String.eqb (tag_of e) name) c.
Proof.
  intros N F. cbn [by_tag]. apply String.eqb_neq in N. rewrite N. cbn [app]. induction c as [|[t1 a1 c1] c IH]; [reflexivity|].
  cbn [flat_map filter]. assert (c1 = []) as -> by (apply (F (Elem t1 a1 c1)); now left). cbn [by_tag flat_map tag_of].
  rewrite app_nil_r. rewrite IH by (intros e He; apply F; now right). now destruct (String.eqb t1 name).
Qed.

Section Read.
  Variable float_of : string -> option R.
  Lemma all_xyz_spec : forall l r, all_xyz float_of l = Some r <-> map (xyz_of float_of) l = map Some r.
  Proof.
    induction l as [|e l IH]; intros r; cbn [all_xyz map].
    - split; [intros [= <-]; reflexivity|]. destruct r; [reflexivity|discriminate].
    - destruct (xyz_of float_of e) as [p|] eqn:E.
      + destruct (all_xyz float_of l) as [r'|] eqn:A.
        * specialize (IH r'). split; [intros [= <-]; cbn; f_equal; now apply IH|].
          destruct r as [|q r]; [discriminate|]. cbn. intros [= -> H]. do 2 f_equal.
          assert (K : map (xyz_of float_of) l = map Some r') by (now apply IH). rewrite K in H. clear -H.
          revert r H; induction r' as [|x r' J]; intros [|y r] H; try discriminate; [reflexivity|]. injection H as -> H; f_equal; now apply J.
        * split; [discriminate|]. destruct r as [|q r]; [discriminate|]. cbn. intros [= -> H]. apply IH in H. discriminate.
      + split; [discriminate|]. destruct r; discriminate.
  Qed.
End Read.

Section Round.
  Variable float_of : string -> option R.
  Variable text_of : R -> string.
  Variable number : nat -> string.
  Hypothesis back : forall x, float_of (text_of x) = Some x.

  Lemma xyz_pos i p : xyz_of float_of (pos_element text_of number i p) = Some p.
  Proof. destruct p as [[x y] z]. unfold xyz_of. cbn. now rewrite !back. Qed.

  Lemma exported_xyz : forall (l : list (nat * point)),
    all_xyz float_of (map (fun ip => pos_element text_of number (fst ip) (snd ip)) l) = Some (map snd l).
  Proof. induction l as [|[i p] l IH]; [reflexivity|]. cbn [map all_xyz fst snd]. now rewrite xyz_pos, IH. Qed.

  Lemma exported_tags : forall (l : list (nat * point)),
    flat_map (by_tag "pos") (map (fun ip => pos_element text_of number (fst ip) (snd ip)) l)
    = map (fun ip => pos_element text_of number (fst ip) (snd ip)) l.
  Proof. induction l as [|[i p] l IH]; [reflexivity|]. cbn [map flat_map]. rewrite IH. destruct p as [[x y] z]. reflexivity. Qed.

  Lemma exported_names (l : list point) : forall n,
    map (fun ip => attribute (attributes_of (pos_element text_of number (fst ip) (snd ip))) "Name") (combine (seq n (List.length l)) l)
    = map (fun i => ("Point " ++ number (i + 1)%nat)%string) (seq n (List.length l)).
  Proof.
    induction l as [|p l IH]; intros n; [reflexivity|]. cbn [List.length seq combine map fst snd]. rewrite IH. f_equal.
    destruct p as [[x y] z]. reflexivity.
  Qed.

  Lemma combine_snd {A} (l : list A) : forall n, map snd (combine (seq n (List.length l)) l) = l.
  Proof. induction l as [|x l IH]; intros n; [reflexivity|]. cbn. now rewrite IH. Qed.

  Lemma import_export pos base : pos <> [] ->
    import_mpos float_of (Elem "MicArray" [("name", base)%string]
      (map (fun ip => pos_element text_of number (fst ip) (snd ip)) (combine (seq 0 (List.length pos)) pos))) = inl pos.
  Proof.
    intros N. unfold import_mpos. cbn [by_tag String.eqb Ascii.eqb Bool.eqb app]. rewrite exported_tags, exported_xyz, combine_snd.
    destruct pos; [congruence|reflexivity].
  Qed.
End Round.
