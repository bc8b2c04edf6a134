(** Compat.v - C41: which data structures belong to which preset.
    include/lib_helper_functions.h:108-136 (is_compatible), :149-170, :194-230, :310-460 (creating data structures), :486-545 (partition_impl,
    improve_impl); mt-kahypar/partition/conversion.cpp:33-93; partitioner_facade.cpp:44-160; utils/cast.h:79-125;
    definitions.h:56-79 (type traits); lib/mtkahypar.cpp:71-94.  All optional features are assumed to be compiled in. *)
From Coq Require Import ZArith Reals List Bool.
From Verif Require Import Weights Api.
Import ListNotations.

Inductive htype := STATIC_GRAPH | DYNAMIC_GRAPH | STATIC_HYPERGRAPH | DYNAMIC_HYPERGRAPH | NULLPTR_HYPERGRAPH.
Inductive ptype := MULTILEVEL_GRAPH | N_LEVEL_GRAPH | MULTILEVEL_HYPERGRAPH | LARGE_K_P | N_LEVEL_HYPERGRAPH | NULLPTR_PARTITION.
Inductive preset_c := DETERMINISTIC | LARGE_K | DEFAULT | QUALITY | HIGHEST_QUALITY | DETERMINISTIC_QUALITY.
Inductive instance := I_graph | I_hypergraph | I_undefined.
Inductive outcome (A : Type) := Done (a : A) | Unsupported | InvalidInput | InvalidParam.
Arguments Done {A}. Arguments Unsupported {A}. Arguments InvalidInput {A}. Arguments InvalidParam {A}.

(** is_compatible (hypergraph), lib_helper_functions.h:108-120 *)
Definition is_compatible_h (h : htype) (p : preset_c) : bool :=
  match p with
  | DEFAULT | QUALITY | DETERMINISTIC | DETERMINISTIC_QUALITY | LARGE_K => match h with STATIC_GRAPH | STATIC_HYPERGRAPH => true | _ => false end
  | HIGHEST_QUALITY => match h with DYNAMIC_GRAPH | DYNAMIC_HYPERGRAPH => true | _ => false end
  end.
(** is_compatible (partition), :122-136 *)
Definition is_compatible_p (t : ptype) (p : preset_c) : bool :=
  match p with
  | DEFAULT | QUALITY | DETERMINISTIC | DETERMINISTIC_QUALITY => match t with MULTILEVEL_GRAPH | MULTILEVEL_HYPERGRAPH => true | _ => false end
  | LARGE_K => match t with MULTILEVEL_GRAPH | LARGE_K_P => true | _ => false end
  | HIGHEST_QUALITY => match t with N_LEVEL_GRAPH | N_LEVEL_HYPERGRAPH => true | _ => false end
  end.
(** to_preset_type, mtkahypar.cpp:71-81; get_preset_c_type, lib_helper_functions.h:231-242 *)
Definition to_preset (p : preset_c) : preset :=
  match p with DETERMINISTIC => P_deterministic | DETERMINISTIC_QUALITY => P_deterministic_quality | LARGE_K => P_large_k | DEFAULT => P_default | QUALITY => P_quality | HIGHEST_QUALITY => P_highest_quality end.
Definition get_preset_c_type (p : preset) : preset_c :=
  match p with P_default => DEFAULT | P_quality => QUALITY | P_highest_quality => HIGHEST_QUALITY | P_deterministic => DETERMINISTIC
             | P_deterministic_quality => DETERMINISTIC_QUALITY | P_large_k => LARGE_K | P_undefined => DEFAULT end.
(** get_instance_type, :203-230 *)
Definition instance_h (h : htype) : instance := match h with STATIC_GRAPH | DYNAMIC_GRAPH => I_graph | STATIC_HYPERGRAPH | DYNAMIC_HYPERGRAPH => I_hypergraph | _ => I_undefined end.
Definition instance_p (t : ptype) : instance := match t with MULTILEVEL_GRAPH | N_LEVEL_GRAPH => I_graph | MULTILEVEL_HYPERGRAPH | N_LEVEL_HYPERGRAPH | LARGE_K_P => I_hypergraph | _ => I_undefined end.
(** to_partition_c_type, conversion.cpp:67-93 *)
Definition to_partition_c_type (p : preset) (i : instance) : ptype :=
  match i with
  | I_graph => match p with P_default | P_quality | P_large_k | P_deterministic | P_deterministic_quality => MULTILEVEL_GRAPH | P_highest_quality => N_LEVEL_GRAPH | _ => NULLPTR_PARTITION end
  | I_hypergraph => match p with P_default | P_quality | P_deterministic | P_deterministic_quality => MULTILEVEL_HYPERGRAPH | P_highest_quality => N_LEVEL_HYPERGRAPH | P_large_k => LARGE_K_P | _ => NULLPTR_PARTITION end
  | I_undefined => NULLPTR_PARTITION
  end.
(** The type traits (definitions.h:56-79) selected by the facade for a partition type (partitioner_facade.cpp:98-126, :132-157): data
    structure of the hypergraph; the data structure of the partition has the partition type itself. *)
Definition traits_h (t : ptype) : option htype :=
  match t with MULTILEVEL_GRAPH => Some STATIC_GRAPH | MULTILEVEL_HYPERGRAPH | LARGE_K_P => Some STATIC_HYPERGRAPH | N_LEVEL_GRAPH => Some DYNAMIC_GRAPH | N_LEVEL_HYPERGRAPH => Some DYNAMIC_HYPERGRAPH | NULLPTR_PARTITION => None end.
Definition htype_eqb (a b : htype) : bool := match a, b with STATIC_GRAPH, STATIC_GRAPH | DYNAMIC_GRAPH, DYNAMIC_GRAPH | STATIC_HYPERGRAPH, STATIC_HYPERGRAPH | DYNAMIC_HYPERGRAPH, DYNAMIC_HYPERGRAPH | NULLPTR_HYPERGRAPH, NULLPTR_HYPERGRAPH => true | _, _ => false end.
Definition ptype_eqb (a b : ptype) : bool := match a, b with MULTILEVEL_GRAPH, MULTILEVEL_GRAPH | N_LEVEL_GRAPH, N_LEVEL_GRAPH | MULTILEVEL_HYPERGRAPH, MULTILEVEL_HYPERGRAPH | LARGE_K_P, LARGE_K_P | N_LEVEL_HYPERGRAPH, N_LEVEL_HYPERGRAPH | NULLPTR_PARTITION, NULLPTR_PARTITION => true | _, _ => false end.

Section WithMax.
Variable dbl_max : R.
(** partition_impl, :486-499 with PartitionerFacade::partition: the checks and casts (the partitioner itself is [body], which may
    report an error of its own).  Result: type of the returned partition. *)
Definition partition_impl (body : outcome unit) (h : htype) (c : context) : outcome ptype :=
  if negb (is_compatible_h h (get_preset_c_type (c_preset c))) then Unsupported
  else if negb (all_parameters_set dbl_max c) then InvalidInput
  else let t := to_partition_c_type (c_preset c) (instance_h h) in
       match traits_h t with
       | None => Done NULLPTR_PARTITION
       | Some h' => if negb (htype_eqb h' h) then InvalidInput
                    else match body with Done _ => Done t | Unsupported => Unsupported | InvalidInput => InvalidInput | InvalidParam => InvalidParam end
       end.
(** improve_impl, :521-537 *)
Definition improve_impl (body : outcome unit) (t : ptype) (c : context) : outcome unit :=
  if negb (is_compatible_p t (get_preset_c_type (c_preset c))) then Unsupported
  else if negb (all_parameters_set dbl_max c) then InvalidInput
  else match to_partition_c_type (c_preset c) (instance_p t) with
       | NULLPTR_PARTITION => Done tt
       | t' => if negb (ptype_eqb t' t) then InvalidInput else body
       end.
End WithMax.
(** create_hypergraph, :310-339 / create_graph :386-413; also hypergraph_from_file via to_hypergraph_c_type, conversion.cpp:33-65 *)
Definition create_type (g : bool) (c : context) : outcome htype :=
  match c_preset c with
  | P_deterministic | P_deterministic_quality | P_large_k | P_default | P_quality => Done (if g then STATIC_GRAPH else STATIC_HYPERGRAPH)
  | P_highest_quality => Done (if g then DYNAMIC_GRAPH else DYNAMIC_HYPERGRAPH)
  | P_undefined => InvalidParam
  end.
(** create_partitioned_hypergraph, :430-471: dispatch on the preset, then a checked cast *)
Definition create_partition_type (h : htype) (c : context) : outcome ptype :=
  let cast h' t := if htype_eqb h' h then Done t else InvalidInput in
  match h with
  | STATIC_GRAPH | DYNAMIC_GRAPH => match c_preset c with P_large_k | P_deterministic | P_deterministic_quality | P_default | P_quality => cast STATIC_GRAPH MULTILEVEL_GRAPH | P_highest_quality => cast DYNAMIC_GRAPH N_LEVEL_GRAPH | P_undefined => InvalidParam end
  | _ => match c_preset c with P_large_k => cast STATIC_HYPERGRAPH LARGE_K_P | P_deterministic | P_deterministic_quality | P_default | P_quality => cast STATIC_HYPERGRAPH MULTILEVEL_HYPERGRAPH
                             | P_highest_quality => cast DYNAMIC_HYPERGRAPH N_LEVEL_HYPERGRAPH | P_undefined => InvalidParam end
  end.

(** C41: partitioning succeeds only for compatible data structures; for a compatible one whose parameters are set no cast fails, so
    the only errors are those of the partitioner; the result can be improved with the same preset. *)
Theorem C41_partition dm body h c :
  (forall t, partition_impl dm body h c = Done t -> is_compatible_h h (get_preset_c_type (c_preset c)) = true /\ is_compatible_p t (get_preset_c_type (c_preset c)) = true /\ instance_p t = instance_h h) /\
  (is_compatible_h h (get_preset_c_type (c_preset c)) = false -> partition_impl dm body h c = Unsupported) /\
  (is_compatible_h h (get_preset_c_type (c_preset c)) = true -> all_parameters_set dm c = true ->
     match body with Done _ => exists t, partition_impl dm body h c = Done t | Unsupported => partition_impl dm body h c = Unsupported | InvalidInput => partition_impl dm body h c = InvalidInput | InvalidParam => partition_impl dm body h c = InvalidParam end).
Proof.
  unfold partition_impl. destruct (is_compatible_h h (get_preset_c_type (c_preset c))) eqn:E; cbn [negb].
  2: { split; [intros t X; discriminate|]. split; [reflexivity|]. intros X; discriminate. }
  destruct (all_parameters_set dm c) eqn:A; cbn [negb].
  2: { split; [intros t X; discriminate|]. split; [discriminate|]. intros _ X; discriminate. }
  assert (NP : c_preset c <> P_undefined). { intros X. unfold all_parameters_set in A. rewrite X in A. discriminate. }
  split; [|split; [discriminate|]].
  - intros t. destruct (c_preset c), h; try discriminate; try congruence; simpl; destruct body; intros X; inversion X; subst; auto.
  - intros _ _. destruct (c_preset c), h; try discriminate; try congruence; simpl; destruct body; eauto.
Qed.
(** C41: the same for improving a partition. *)
Theorem C41_improve dm body t c :
  (improve_impl dm body t c = Done tt -> is_compatible_p t (get_preset_c_type (c_preset c)) = true) /\
  (is_compatible_p t (get_preset_c_type (c_preset c)) = false -> improve_impl dm body t c = Unsupported) /\
  (is_compatible_p t (get_preset_c_type (c_preset c)) = true -> all_parameters_set dm c = true -> improve_impl dm body t c = body).
Proof.
  unfold improve_impl. destruct (is_compatible_p t (get_preset_c_type (c_preset c))) eqn:E; cbn [negb].
  2: { split; [intros X; discriminate|]. split; [reflexivity|]. intros X; discriminate. }
  split; [reflexivity|]. split; [discriminate|]. intros _ A. rewrite A. cbn [negb].
  assert (NP : c_preset c <> P_undefined). { intros X. unfold all_parameters_set in A. rewrite X in A. discriminate. }
  destruct (c_preset c), t; try discriminate; try congruence; reflexivity.
Qed.
(** C41: every (hyper)graph created or read for a preset is compatible with it; a partition created from it is compatible with the
    preset; creating a partition of another data structure is refused. *)
Theorem C41_create g c p : c_preset c = to_preset p ->
  exists h, create_type g c = Done h /\ is_compatible_h h p = true /\ instance_h h = (if g then I_graph else I_hypergraph) /\
    (exists t, create_partition_type h c = Done t /\ is_compatible_p t p = true /\ instance_p t = instance_h h) /\
    forall h', is_compatible_h h' p = false -> create_partition_type h' c = InvalidInput.
Proof.
  intros E. unfold create_type, create_partition_type. rewrite E.
  destruct p, g; simpl; eexists; (split; [reflexivity|]); simpl; (split; [reflexivity|]); (split; [reflexivity|]); (split; [eexists; split; [reflexivity|split; reflexivity]|]); intros h' H; destruct h'; simpl in *; congruence.
Qed.
(** The preset given to mt_kahypar_context_from_preset is the one the getter returns. *)
Theorem C41_preset_roundtrip p : get_preset_c_type (to_preset p) = p.
Proof. destruct p; reflexivity. Qed.
Example ex_C41 : let c := mkCtx P_large_k 2048 0 0 O_km1 false false in
  create_type false c = Done STATIC_HYPERGRAPH /\ create_partition_type STATIC_HYPERGRAPH c = Done LARGE_K_P /\
  is_compatible_p MULTILEVEL_HYPERGRAPH LARGE_K = false /\ is_compatible_p MULTILEVEL_GRAPH LARGE_K = true.
Proof. repeat split. Qed.
