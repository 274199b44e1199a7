(** Specification for C69: the blocks a handle keeps, and which setups lose one. *)
From Verif Require Import Base GsMem.
Local Open Scope nat_scope.

(** Blocks are used once, and new ones are new. *)
Definition heap_ok (h : heap) : Prop := NoDup (live h) /\ forall b, In b (live h) -> b < fresh h.
Definition set_maps (maps : list (option nat)) : list nat := flat_map (fun m => match m with Some b => [b] | None => [] end) maps.
Definition kept (r : remote) : list nat :=
  match r with
  | PW c0 c1 m0 m1 q s => [c0; c1; m0; m1; q; s]
  | CR _ st maps s => st :: s :: set_maps maps
  | AR t0 f0 t1 f1 q s => [t0; f0; t1; f1; q; s]
  end.
Definition blocks (g : handle) : list nat := self g :: local0 g :: local1 g :: primaries g :: kept (r g).
Definition all_blocks (w : world) : list nat := flat_map (fun o => match o with Some g => blocks g | None => [] end) (handles w).
(** The all-reduce method is set up: asked for, or tried by gs_auto. *)
Definition tries_all_reduce (a : call) : bool :=
  match a with
  | Setup gs_all_reduce _ _ _ _ _ => true
  | Setup gs_auto _ np t _ _ => (1 <? np) && (t <? 100000)%Z
  | _ => false
  end.
Definition is_ar (g : handle) : bool := match r g with AR _ _ _ _ _ _ => true | _ => false end.
(** The live handles with the all-reduce method. *)
Definition ar_handles (w : world) : nat := length (filter (fun o => match o with Some g => is_ar g | None => false end) (handles w)).

(** Any number of setups and frees of handles that exist, from any heap. *)
Inductive history (h0 : heap) : list call -> world -> Prop :=
| h_nil : history h0 [] (World h0 [])
| h_call h w a w' : history h0 h w -> step w a = Ok w' -> history h0 (h ++ [a]) w'.
Definition respects (w : world) (a : call) : Prop :=
  match a with Setup _ _ _ _ _ _ => True | Free k => exists g, nth_error (handles w) k = Some (Some g) end.
