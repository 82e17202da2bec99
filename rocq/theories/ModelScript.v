(** * Model of the text level: bayesnet/loci.py parse_loci and __repr__, bayesnet/bn.py
      form_script, append_from_definition, bayes_net_from_script, to_script *)

Require Import Verif.Base Verif.World Verif.ModelGraph Verif.ModelExpr Verif.ModelLoci Verif.ModelBN.

(** Python text as a list of characters. Simplification: ASCII only, so that the classes
    of the regular expressions are given by character codes below 128. *)
Definition text := list ascii.
Definition T (s : string) : text := list_ascii_of_string s.
Definition S_ (t : text) : string := string_of_list_ascii t.

(** ** Regular expressions of module re, as far as the package uses them (loci.py:251-270,
       bn.py:297): literals, one or more characters of a class, end of text. Matching starts
       at the beginning (re.match), repetition is greedy with backtracking, every repetition
       is recorded (whether or not the pattern puts it into a group). *)
Definition is_word (c : ascii) : bool :=                 (* \w *)
  let n := nat_of_ascii c in
  (48 <=? n) && (n <=? 57) || (65 <=? n) && (n <=? 90) || (97 <=? n) && (n <=? 122) || (n =? 95).
Definition is_space (c : ascii) : bool :=                (* \s *)
  let n := nat_of_ascii c in (9 <=? n) && (n <=? 13) || (28 <=? n) && (n <=? 32).
Definition no_space (c : ascii) : bool := negb (is_space c).   (* \S *)
(** the same letter, whatever its case (re.I), for a lower-case letter [l] *)
Definition same_letter (l c : ascii) : bool :=
  Ascii.eqb c l || (nat_of_ascii c + 32 =? nat_of_ascii l).

Inductive ratom : Type :=
| RLit (p : ascii -> bool)
| RPlus (p : ascii -> bool)
| REnd.

Fixpoint run_len (p : ascii -> bool) (s : text) : nat :=
  match s with
  | c :: s' => if p c then S (run_len p s') else 0
  | [] => 0
  end.
(** longest first, at least one character *)
Fixpoint try_len (k : nat) (rec : text -> option (list text)) (s : text) : option (nat * list text) :=
  match k with
  | O => None
  | S k' => match rec (skipn k s) with
            | Some g => Some (k, g)
            | None => try_len k' rec s
            end
  end.
Fixpoint rmatch (rs : list ratom) (s : text) : option (list text) :=
  match rs with
  | [] => Some []
  | RLit p :: rs' => match s with
                     | c :: s' => if p c then rmatch rs' s' else None
                     | [] => None
                     end
  | RPlus p :: rs' => match try_len (run_len p s) (rmatch rs') s with
                      | Some (k, g) => Some (firstn k s :: g)
                      | None => None
                      end
  | REnd :: rs' => match s with [] => rmatch rs' [] | _ => None end
  end.

Definition ch (c : ascii) : ratom := RLit (Ascii.eqb c).
Definition re_comment : list ratom := [RPlus no_space; ch "#"; RPlus no_space].   (* \A(\S+)#(\S+) loci.py:251 *)
Definition re_dist : list ratom := [RPlus is_word; ch "~"; RPlus no_space].       (* \A(\w+)~(\S+) loci.py:256 *)
Definition re_assign : list ratom := [RPlus is_word; ch "="; RPlus no_space].     (* \A(\w+)=(\S+) loci.py:258-259 *)
Definition re_name : list ratom := [RPlus is_word; REnd].                         (* \A\w+\Z loci.py:267 *)
Definition re_header : list ratom :=                                              (* pcore(\w+){, re.I, bn.py:297 *)
  map (fun c => RLit (same_letter c)) (T "pcore") ++ [RPlus is_word; ch "{"].

(** ** Text operations of Python *)

(** 'c' in text *)
Definition has (c : ascii) (s : text) : bool := existsb (Ascii.eqb c) s.
(** text.replace(' ', '') *)
Definition unblank (s : text) : text := filter (fun c => negb (Ascii.eqb c " ")) s.
(** text.startswith *)
Fixpoint starts (p s : text) : bool :=
  match p, s with
  | [], _ => true
  | a :: p', b :: s' => Ascii.eqb a b && starts p' s'
  | _ :: _, [] => false
  end.
(** text.split('\n'): never empty *)
Definition nl : ascii := ascii_of_nat 10.
Definition tab : ascii := ascii_of_nat 9.
Fixpoint lines (s : text) : list text :=
  match s with
  | [] => [[]]
  | c :: s' => if Ascii.eqb c nl then [] :: lines s'
               else match lines s' with
                    | l :: ls => (c :: l) :: ls
                    | [] => [[c]]
                    end
  end.
(** sep.join(texts) *)
Fixpoint join (sep : text) (l : list text) : text :=
  match l with
  | [] => []
  | [x] => x
  | x :: l' => x ++ sep ++ join sep l'
  end.

(** The Python parser and printer: [sy_parse] is ast.parse followed by reading the syntax
    tree into [expr] (None: SyntaxError; simplification: also for text that is no single
    expression), [sy_expr] gives the text kept in Func/Expression, [sy_val] is str(value).
    No law is assumed about them. *)
Record syntax (w : world) : Type := mkSyntax {
  sy_parse : text -> option expr;
  sy_expr : expr -> text;
  sy_val : V w -> text
}.
Arguments sy_parse {w}.
Arguments sy_expr {w}.
Arguments sy_val {w}.

Section Script.
  Context {w : world} (y : syntax w).

  Definition read_expr (t : text) : res expr :=
    match sy_parse y t with Some e => Ok e | None => Err SyntaxError end.

  (** loci.py:247-272 parse_loci. A failed re.match gives None, whose .groups() is an
      AttributeError. *)
  Definition parse_loci (df0 : text) : res (loci w * text) :=
    let df1 := unblank df0 in
    do (df, des) <- (if has "#" df1
                     then match rmatch re_comment df1 with
                          | Some [a; b] => Ok (a, b)
                          | _ => Err AttributeError
                          end
                     else Ok (df1, []));
    if has "~" df then
      match rmatch re_dist df with
      | Some [n; d] => do e <- read_expr d; do l <- mk_dist (S_ n) e []; Ok (l, des)
      | _ => Err AttributeError
      end
    else
      match rmatch re_assign df with
      | Some [n; d] =>
          if starts (T "f(") d then do e <- read_expr d; do l <- mk_pseudo (S_ n) e []; Ok (l, des)
          else match (do e <- read_expr d; mk_value_text (S_ n) e) with
               | Ok l => Ok (l, des)
               | Err NameError => do e <- read_expr d; do l <- mk_func (S_ n) e []; Ok (l, des)
               | Err x => Err x
               end
      | _ => match rmatch re_name df with
             | Some _ => Ok (LExo (S_ df), des)
             | None => Err ScriptException
             end
      end.

  (** bn.py:99-107 append_from_definition: outcome and the network left behind *)
  Definition append_from_definition (b : bn w) (df : text) : res unit * bn w :=
    match parse_loci df with
    | Err e => (Err e, b)
    | Ok (l, des) => append_loci b l (match des with [] => None | _ => Some (S_ des) end)
    end.

  (** loci.py:75-76, 107-108, 153-154, 189-190, 225-226 __repr__ *)
  Definition loci_repr (l : loci w) : text :=
    match l with
    | LValue n v => T n ++ T " = " ++ sy_val y v
    | LExo n => T n
    | LDist n f _ => T n ++ T " ~ " ++ sy_expr y f
    | LFunc n e _ => T n ++ T " = " ++ sy_expr y e
    | LPseudo n ps => T n ++ T " = " ++ T "f(" ++ join (T ", ") (map T ps) ++ T ")"
    end.

  (** bn.py:45-48: the line of a node, without the line break *)
  Definition node_line (a : attr w) : text :=
    tab :: loci_repr (a_loci a) ++ match a_des a with Some d => T " # " ++ T d | None => [] end.
  (** bn.py:42-50 form_script *)
  Definition form_script (b : bn w) : text :=
    T "PCore " ++ T (b_name b) ++ T " {" ++ [nl]
      ++ flat_map (fun p => node_line (snd p) ++ [nl]) (b_attrs b) ++ T "}".

  (** bn.py:296-302: the name in the first line with a header *)
  Fixpoint find_header (ls : list text) : res text :=
    match ls with
    | [] => Err ScriptException
    | l :: ls' => match rmatch re_header l with
                  | Some (n :: _) => Ok n
                  | _ => find_header ls'
                  end
    end.

  (** bn.py:303-307: ScriptException is swallowed, everything else leaves the function *)
  Fixpoint append_lines (b : bn w) (ls : list text) : res (bn w) :=
    match ls with
    | [] => Ok b
    | l :: ls' => match append_from_definition b l with
                  | (Ok _, b') => append_lines b' ls'
                  | (Err ScriptException, b') => append_lines b' ls'
                  | (Err e, _) => Err e
                  end
    end.

  (** A network together with its attribute script (bn.py:59) *)
  Record snet : Type := mkSnet { sn_bn : bn w; sn_script : option text }.

  (** bn.py:288-310 bayes_net_from_script *)
  Definition bayes_net_from_script (script : text) : res snet :=
    let ls := map unblank (lines script) in
    do n <- find_header ls;
    do b <- append_lines (bn_new (S_ n)) ls;
    match complete b with
    | (Ok _, b') => Ok (mkSnet b' (Some script))
    | (Err e, _) => Err e
    end.

  (** bn.py:225-226 to_script; None is Python's None *)
  Definition to_script (s : snet) : option text :=
    if b_frozen (sn_bn s) then sn_script s else Some (form_script (sn_bn s)).
  (** bn.py:132-140 complete and 142-150 defrost with the script attribute *)
  Definition scomplete (s : snet) : res unit * snet :=
    match complete (sn_bn s) with
    | (Ok u, b') => (Ok u, mkSnet b' (Some (form_script b')))
    | (Err e, b') => (Err e, mkSnet b' (sn_script s))
    end.
  Definition sdefrost (s : snet) : snet := mkSnet (defrost (sn_bn s)) None.
End Script.

Arguments snet w : clear implicits.
