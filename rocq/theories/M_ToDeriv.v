(* Model of CSRepresentation::toderiv, src/grammars/lcfrs/csparsing/mod.rs. *)
From Verif Require Import Base BMap M_Util M_Recog M_TreeStack M_Grammar M_Chart M_CSAuto.

(* mod.rs:256-272: the loop over the brackets; None = the early return *)
Fixpoint toderiv_loop (word : list (bracket bcontent)) (pos : list nat) (tree : gorn nat) : option (gorn nat) :=
  match word with
  | [] => Some tree
  | Open (BComp rule_id _) :: word =>
      match gt_get pos tree with
      | None => toderiv_loop word pos (gt_insert pos rule_id tree)
      | Some r => if Nat.eqb r rule_id then toderiv_loop word pos tree else None
      end
  | Open (BVar _ i _) :: word => toderiv_loop word (pos ++ [i]) tree
  | Close (BVar _ _ _) :: word => toderiv_loop word (removelast pos) tree
  | _ :: word => toderiv_loop word pos tree
  end.
(* mod.rs:252-279; outer None = panic by an index out of bounds.  Collecting the entries of a BTreeMap with the same keys
   into a BTreeMap again keeps them as they are. *)
Definition toderiv {N T W} (rules : list (prule N T W)) (word : list (bracket bcontent)) : option (option (gorn (prule N T W))) :=
  match toderiv_loop word [] [] with
  | None => Some None
  | Some tree => option_map Some (opt_all (fun e => option_map (pair (fst e)) (nth_error rules (snd e))) tree)
  end.
