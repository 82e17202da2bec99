(** * Model of how the genetic algorithm finds its operators: get_crossover, get_mutator, get_selector
      (fit/ga/cross.py, mutate.py, select.py) and GeneticAlg.__init__ (fit/ga/alg.py) *)

Require Import Verif.Base Verif.World Verif.ModelExpr Verif.ModelScript Verif.ModelAtelier.

(** cross.py:50-63, mutate.py:63-68, select.py:69-84: the creator classes *)
Inductive op_class := CreAvg | CreShu | CreRw | CreTour | CreImp.

(** their fields: select.py:70, the others have none *)
Definition op_fields (c : op_class) : list (name * option string) :=
  match c with CreTour => [("K", Some "3")] | _ => [] end%string.

(** cross.py:41, 55, 63 CrossoverCentre; mutate.py:54, 68 MutatorCentre; select.py:60, 76, 84 SelectCentre,
    as they are once the modules are imported *)
Definition crossover_centre : workshop op_class := register (register atelier_new "average" CreAvg) "shuffle" CreShu.
Definition mutator_centre : workshop op_class := register atelier_new "rw" CreRw.
Definition select_centre : workshop op_class := register (register atelier_new "tour" CreTour) "importance" CreImp.

(** seq.endswith(')') *)
Fixpoint ends_paren (s : text) : bool :=
  match s with
  | [] => false
  | [c] => Ascii.eqb c ")"
  | _ :: s' => ends_paren s'
  end.

(** cross.py:45-46, mutate.py:58-59, select.py:64-65 *)
Definition recipe (s : text) : text := if ends_paren s then s else (s ++ T "()")%list.

Section Recipe.
  (** [y]: Python's reader; [cls c]: the class as a Python value; [bdict]: the dict of builtins *)
  Context {w : world} (y : syntax w) (cls : op_class -> V w) (bdict : V w).

  (** cross.py:44-47 get_crossover, mutate.py:57-60 get_mutator, select.py:63-66 get_selector, on the
      workshop they ask: the outcome and the workshop left behind. No names are given (loc=None). *)
  Definition get_operator (ws : workshop op_class) (s : text) : res (Dist w) * workshop op_class :=
    match read_expr y (recipe s) with
    | Err x => (Err x, ws)
    | Ok e => ws_create cls op_fields bdict ws e (fun _ => None) true
    end.

  (** the three workshops *)
  Record centres := mkCentres { ct_cro : workshop op_class; ct_mut : workshop op_class; ct_sel : workshop op_class }.
  Definition centres_new : centres := mkCentres crossover_centre mutator_centre select_centre.

  (** alg.py:32-34 of GeneticAlg.__init__: crossover, mutator and selector by the settings 'cro', 'mut', 'sel' *)
  Definition find_operators (cs : centres) (cro mut sel : text) : res (Dist w * Dist w * Dist w) * centres :=
    let (rc, wc) := get_operator (ct_cro cs) cro in
    match rc with
    | Err x => (Err x, mkCentres wc (ct_mut cs) (ct_sel cs))
    | Ok c =>
        let (rm, wm) := get_operator (ct_mut cs) mut in
        match rm with
        | Err x => (Err x, mkCentres wc wm (ct_sel cs))
        | Ok m =>
            let (rs, wsl) := get_operator (ct_sel cs) sel in
            (match rs with Err x => Err x | Ok s => Ok (c, m, s) end, mkCentres wc wm wsl)
        end
    end.

  (** any number of algorithms made one after another *)
  Definition made (jobs : list (text * text * text)) : centres :=
    fold_left (fun cs j => snd (find_operators cs (fst (fst j)) (snd (fst j)) (snd j))) jobs centres_new.
End Recipe.
