(** Which callbacks should run, from the list of registrations alone. *)
From stdpp Require Import base list numbers.
From Verif Require Import Filter Dispatch.
Local Open Scope N_scope.

(** The first registration for an unordered pair of types, or a default. *)
Definition for_types (a b : N) (h : handler) : bool :=
  ((htypeA h =? a) && (htypeB h =? b)) || ((htypeA h =? b) && (htypeB h =? a)).
Definition chosen (regs : list handler) (a b : N) (d : handler) : handler := default d (List.find (for_types a b) regs).
(** Calls made by, and result of, a wildcard callback that sees the shapes as x, y. *)
Definition wild_calls (prog : N -> what -> func) (w : what) (h : handler) (x y : N) : list call :=
  match func_of prog h w with FUser _ => [Call (hid h) w x y] | _ => [] end.
Definition wild_result (prog : N -> what -> func) (w : what) (h : handler) : bool :=
  match func_of prog h w with FUser r => r | _ => true end.
Definition may_refuse (w : what) : bool := match w with WBegin | WPreSolve => true | _ => false end.
