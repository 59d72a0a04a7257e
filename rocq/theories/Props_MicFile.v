(** Property C110: microphone geometries and grids read from and written to files, centre and aperture. *)
From Coq Require Import List Arith Lia ZArith Bool String Reals Lra.
From Verif Require Import Stream Sources MicFile.
Import ListNotations.
Local Open Scope R_scope.

(** The elements that are read are all elements of the document with the tag, at any depth. *)
Theorem C110_elements name doc e :
  In e (by_tag name doc) <-> below doc e /\ tag_of e = name.
Proof. apply by_tag_below. Qed.
Print Assumptions C110_elements.

(** In a document whose positions lie directly below the root they are read in the order of the document; a position per element,
    with the values of its three attributes. *)
Theorem C110_import float_of t a c pos :
  t <> "pos"%string -> (forall e, In e c -> children_of e = []) ->
  import_mpos float_of (Elem t a c) = inl pos <->
  pos <> [] /\
  map Some pos = map (fun e => match float_of (attribute (attributes_of e) "x"), float_of (attribute (attributes_of e) "y"),
                                     float_of (attribute (attributes_of e) "z") with
                               | Some x, Some y, Some z => Some (x, y, z) | _, _, _ => None end)
                     (filter (fun e => String.eqb (tag_of e) "pos") c).
Proof.
  intros T F. unfold import_mpos. rewrite by_tag_flat by assumption.
  assert (S := all_xyz_spec float_of (filter (fun e => String.eqb (tag_of e) "pos") c)).
  destruct (all_xyz float_of _) as [[|p l]|] eqn:E.
  - split; [discriminate|]. intros [N M]. symmetry in M. apply S in M. congruence.
  - split.
    + intros [= <-]. split; [discriminate|]. symmetry. now apply S.
    + intros [N M]. symmetry in M. apply S in M. congruence.
  - split; [discriminate|]. intros [N M]. symmetry in M. apply S in M. discriminate.
Qed.
Print Assumptions C110_import.

(** An element without one of the three attributes makes the file an error. *)
Theorem C110_missing float_of doc e name :
  float_of EmptyString = None -> below doc e -> tag_of e = "pos"%string -> In name ["x"; "y"; "z"]%string ->
  (forall v, ~ In (name, v) (attributes_of e)) -> import_mpos float_of doc = inr ValueError.
Proof.
  intros F B T N M. assert (I0 : In e (by_tag "pos" doc)) by (apply by_tag_below; now split).
  assert (A : attribute (attributes_of e) name = EmptyString).
  { clear -M. induction (attributes_of e) as [|[k v] l IH]; [reflexivity|]. cbn [attribute].
    destruct (String.eqb_spec k name) as [->|K]; [exfalso; apply (M v); now left|]. apply IH. intros w W. apply (M w). now right. }
  assert (X : xyz_of float_of e = None).
  { unfold xyz_of. destruct N as [<-|[<-|[<-|[]]]]; rewrite A, F; [reflexivity| |];
      destruct (float_of (attribute (attributes_of e) "x")); try reflexivity; destruct (float_of (attribute (attributes_of e) "y")); reflexivity. }
  unfold import_mpos. destruct (all_xyz float_of (by_tag "pos" doc)) as [r|] eqn:E; [|reflexivity]. exfalso.
  apply all_xyz_spec in E. apply (in_map (xyz_of float_of)) in I0. rewrite E, X in I0. apply in_map_iff in I0. destruct I0 as (p & P & _). discriminate.
Qed.
Print Assumptions C110_missing.

(** A grid from a file has the same positions, and a subgrid name per position. *)
Theorem C110_grid float_of doc :
  match import_gpos float_of doc with
  | inl (pos, names) => import_mpos float_of doc = inl pos /\ List.length names = List.length pos /\
      forall j e, nth_error (by_tag "pos" doc) j = Some e -> nth_error names j = Some (attribute (attributes_of e) "subgrid")
  | inr e => e = ValueError /\ import_mpos float_of doc = inr ValueError
  end.
Proof.
  unfold import_gpos, import_mpos. destruct (all_xyz float_of (by_tag "pos" doc)) as [[|p l]|] eqn:E; [split; reflexivity| |split; reflexivity].
  split; [reflexivity|]. split.
  - apply all_xyz_spec in E. apply (f_equal (@List.length _)) in E. rewrite !map_length in *. exact E.
  - intros j e H. rewrite nth_error_map, H. reflexivity.
Qed.
Print Assumptions C110_grid.

(** Exporting a geometry and importing the file gives the valid microphones, in their order; [float_of], [text_of] are the conversions
    between numbers and texts.  Not covered: names with other characters that XML reserves. *)
Theorem C110_roundtrip_partial float_of text_of number pos_total invalid basename :
  (forall x, float_of (text_of x) = Some x) ->
  keep_valid invalid pos_total <> [] ->
  contains "<" basename = false -> contains "& " basename = false ->
  exists doc, export_mpos text_of number pos_total invalid basename = inl (Some doc) /\
    import_mpos float_of doc = inl (keep_valid invalid pos_total) /\
    micgeom_pos (keep_valid invalid pos_total) [] = micgeom_pos pos_total invalid /\
    map (fun e => attribute (attributes_of e) "Name") (by_tag "pos" doc)
    = map (fun i => ("Point " ++ number (i + 1)%nat)%string) (seq 0 (List.length (keep_valid invalid pos_total))).
Proof.
  intros B N L A. destruct (micgeom_spec pos_total invalid) as [K _]. destruct (K (or_intror N)) as [K1 _].
  unfold export_mpos. rewrite K1, L, A. cbn [orb]. eexists. split; [reflexivity|]. split; [now apply import_export|].
  split; [reflexivity|]. cbn [by_tag String.eqb Ascii.eqb Bool.eqb app]. rewrite exported_tags, map_map.
  apply exported_names.
Qed.
Print Assumptions C110_roundtrip_partial.

(** An ordinary name of a file leaves a file that cannot be read. *)
Theorem C110_name_refuted : forall text_of number pos_total,
  exists basename, export_mpos text_of number pos_total [] basename = inl None.
Proof. intros. exists "nose & tail"%string. reflexivity. Qed.
Print Assumptions C110_name_refuted.

(** The file holds the valid microphones only: read into the same geometry, whose invalid channels stay, it loses further ones. *)
Theorem C110_again_refuted : forall float_of text_of number, (forall x, float_of (text_of x) = Some x) ->
  exists pos_total invalid doc pos,
    export_mpos text_of number pos_total invalid "array" = inl (Some doc) /\ import_mpos float_of doc = inl pos /\
    micgeom_pos pos_total invalid = inl pos /\ micgeom_pos pos invalid <> inl pos.
Proof.
  intros f t n B. set (l := [(1, 0, 0); (2, 0, 0); (3, 0, 0)] : list point).
  destruct (C110_roundtrip_partial f t n l [0%Z] "array" B) as (doc & E & I0 & _); [discriminate|reflexivity|reflexivity|].
  exists l, [0%Z], doc, (keep_valid [0%Z] l). split; [exact E|]. split; [exact I0|]. split; [reflexivity|].
  cbn. intros H. injection H. discriminate.
Qed.
Print Assumptions C110_again_refuted.

(** A file without positions is an error. *)
Theorem C110_empty_refuted : forall float_of, exists doc,
  by_tag "pos" doc = [] /\ import_mpos float_of doc = inr ValueError.
Proof. intros. exists (Elem "MicArray" [] []). split; reflexivity. Qed.
Print Assumptions C110_empty_refuted.

(** The centre is the mean of the positions, up to 1e-16 in every coordinate: it lies in every box that holds the
    microphones, and the displacements from it cancel. *)
Theorem C110_center_partial pos : (exists p a, In p pos /\ coord a p <> 0) ->
  exists c, center pos = Some c /\
  forall a, (a < 3)%nat ->
    Rabs (rsum (map (fun p => coord a p - coord a c) pos)) <= INR (List.length pos) / 10 ^ 16 /\
    (/ 10 ^ 16 <= Rabs (coord a c) -> rsum (map (fun p => coord a p - coord a c) pos) = 0) /\
    (forall lo hi, (forall p, In p pos -> lo <= coord a p <= hi) -> lo - / 10 ^ 16 <= coord a c <= hi + / 10 ^ 16).
Proof.
  intros E. rewrite center_some by exact E. eexists. split; [reflexivity|]. intros a A.
  assert (P : (0 < List.length pos)%nat) by (destruct E as (p & _ & H & _); destruct pos; [destruct H|cbn; lia]).
  assert (N : 0 < INR (List.length pos)) by (now apply lt_0_INR).
  assert (E0 : 0 < / 10 ^ 16) by (apply Rinv_0_lt_compat, pow_lt; lra).
  match goal with |- context [coord a ?c] => set (C := c) end.
  assert (CE : coord a C = flush (/ 10 ^ 16) (mean (map (coord a) pos))).
  { unfold C. destruct a as [|[|a]]; reflexivity. }
  rewrite CE. set (m := mean (map (coord a) pos)). set (f := flush (/ 10 ^ 16) m).
  assert (D : rsum (map (fun p => coord a p - f) pos) = INR (List.length pos) * (m - f)).
  { rewrite rsum_shift. unfold m, mean. rewrite map_length. field. lra. }
  assert (FN : Rabs (m - f) < / 10 ^ 16) by apply flush_near, E0.
  split; [|split].
  - rewrite D, Rabs_mult, (Rabs_pos_eq (INR _)) by lra. unfold Rdiv. apply Rmult_le_compat_l; lra.
  - intros G. rewrite D. replace f with m; [ring|]. unfold f, flush in *. destruct (Rlt_dec (Rabs m) (/ 10 ^ 16)) as [L|L]; [|reflexivity].
    rewrite Rabs_R0 in G. lra.
  - intros lo hi H. assert (lo <= m <= hi).
    { unfold m. apply mean_between; [destruct pos; [cbn in P; lia|discriminate]|]. intros x X. apply in_map_iff in X. destruct X as (p & <- & X). now apply H. }
    apply Rabs_def2 in FN. lra.
Qed.
Print Assumptions C110_center_partial.

Definition euclid (p q : point) : R :=
  let '(x, y, z) := p in let '(u, v, w) := q in sqrt ((x - u) ^ 2 + (y - v) ^ 2 + (z - w) ^ 2).

(** The aperture is the largest distance between two microphones. *)
Theorem C110_aperture_partial pos : (exists p, In p pos /\ p <> (0, 0, 0)) ->
  exists d, aperture pos = Some d /\ (forall p q, In p pos -> In q pos -> euclid p q <= d) /\
  exists p q, In p pos /\ In q pos /\ euclid p q = d.
Proof.
  intros E0. assert (EU : forall p q, euclid p q = pdist p q).
  { intros [[x y] z] [[u v] w]. unfold euclid, pdist. cbn [coord]. f_equal. ring. }
  assert (E : exists p a, In p pos /\ coord a p <> 0).
  { destruct E0 as ([[x y] z] & P & N). destruct (Req_EM_T x 0) as [->|X]; [|now exists (x, y, z), 0%nat].
    destruct (Req_EM_T y 0) as [->|Y]; [|now exists (0, y, z), 1%nat]. destruct (Req_EM_T z 0) as [->|Z]; [congruence|now exists (0, 0, z), 2%nat]. }
  unfold aperture. rewrite some_nonzero by exact E. eexists. split; [reflexivity|].
  set (l := flat_map _ _). assert (LI : forall d, In d l <-> exists p q, In p pos /\ In q pos /\ euclid p q = d).
  { intros d. unfold l. rewrite in_flat_map. split.
    - intros (p & P & D). apply in_map_iff in D. destruct D as (q & D & Q). exists p, q. now rewrite EU.
    - intros (p & q & P & Q & D). exists p. split; [exact P|]. apply in_map_iff. exists q. now rewrite <- EU. }
  split.
  - intros p q P Q. apply fold_max_ge, LI. now exists p, q.
  - apply LI, fold_max_in.
    + intros x X. apply LI in X. destruct X as (p & q & _ & _ & <-). rewrite EU. apply pdist_nonneg.
    + destruct E as (p & _ & P & _). intros Z. assert (X : In (euclid p p) l) by (apply LI; now exists p, p). rewrite Z in X. destruct X.
Qed.
Print Assumptions C110_aperture_partial.

(** Microphones that all stand at the origin, a single one for example, have neither centre nor aperture. *)
Theorem C110_origin_refuted : exists pos, pos <> [] /\ center pos = None /\ aperture pos = None.
Proof.
  exists [(0, 0, 0)]. split; [discriminate|]. unfold center, aperture. cbn [existsb nonzero].
  destruct (Req_EM_T 0 0) as [_|N]; [|congruence]. split; reflexivity.
Qed.
Print Assumptions C110_origin_refuted.

(** Two microphones, the second invalid, and a document with a position below a group. *)
Example C110_case :
  keep_valid [1%Z] ([(1, 2, 3); (4, 5, 6)] : list point) <> [] /\
  List.length (by_tag "pos" (Elem "Array" [] [Elem "pos" [] []; Elem "group" [] [Elem "pos" [] []]])) = 2%nat /\
  (exists p a, In p ([(1, 2, 3); (4, 5, 6)] : list point) /\ coord a p <> 0) /\
  (forall v, ~ In ("z"%string, v) (attributes_of (Elem "pos" [("x", "1"); ("y", "2")]%string []))) /\
  contains "<" "array_64" = false /\ contains "& " "array_64" = false.
Proof.
  split; [discriminate|]. split; [reflexivity|]. split; [|split; [intros v [H|[H|[]]]; discriminate|split; reflexivity]].
  exists (1, 2, 3), 0%nat. split; [now left|]. cbn. lra.
Qed.

(** A conversion between numbers and texts that satisfies the hypothesis: on the texts it produces it is inverted. *)
Example C110_import_case : forall x y z : R, exists c,
  import_mpos (fun s => if String.eqb s "a" then Some x else if String.eqb s "b" then Some y else if String.eqb s "c" then Some z else None)
    (Elem "Array" [] c) = inl [(x, y, z)] /\ (forall e, In e c -> children_of e = []).
Proof.
  intros. exists [Elem "pos" [("x", "a"); ("y", "b"); ("z", "c")]%string []; Elem "other" [] []]. split; [reflexivity|].
  intros e [<-|[<-|[]]]; reflexivity.
Qed.
