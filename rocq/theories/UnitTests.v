(** * The unit tests of the repository, run on the model.
    Every test function of src/ is transcribed; texts are copied verbatim (after Rust's
    string escapes).  They are tests of the model, not property proofs.  Tests that, by the
    model, fail at the pinned commit are stated as what happens instead, and say so. *)
From Coq Require Import Ascii String.
From Verif Require Import Base Peekables Tree Errors ParseFuncs ParserData Vm SimpleStackVm
  StackVm Sets Helpers SimpleGraph RuleParsing FirstSets FollowSets SteuerMap ScriptParser Samples.
#[local] Existing Instance ascii_unicode.
#[local] Existing Instance plain_order.

(** [parser.parse_rules().unwrap(); parser.parser_data] *)
Definition data_of (t : str) : option (ParserData (vm_instr NullVm)) :=
  match parse_rules_fn NullVm (rp_new NullVm t) with (Ok _, s) => Some (rp_pd s) | _ => None end.
(** [let _ = parser.parse_rules(); parser.parser_data] *)
Definition data_after (t : str) : ParserData (vm_instr NullVm) := rp_pd (snd (parse_rules_fn NullVm (rp_new NullVm t))).
Definition fuel1 : nat := 30.
Definition fuel2 : nat := 400.
Definition all_sets {A} `{Countable A} (pd : ParserData (vm_instr NullVm)) (sets : gmap nat (gset A)) (make : str -> gset A) (l : list (str * str)) : bool :=
  forallb (fun '(name, members) => match get_element_nt_index pd name with Some ix => bool_decide (sets !! ix = Some (make members)) | None => false end) l.
Definition first_ok (t : str) (l : list (str * str)) : bool :=
  match data_of t with
  | Some pd => match get_first_sets pd fuel1 with Ok fs => all_sets pd fs make_memberset l | _ => false end
  | None => false
  end.
Definition follows {A} (t : str) (k : ParserData (vm_instr NullVm) -> NamedSets -> NamedSetsNoEmpty -> A) : option A :=
  match data_of t with
  | Some pd =>
      match get_first_sets pd fuel1, get_element_nt_index pd (lit "start") with
      | Ok fs, Some start => match get_follow_sets Checked pd fuel2 start fs with Ok fo => Some (k pd fs fo) | _ => None end
      | _, _ => None
      end
  | None => None
  end.
Definition follow_ok (t : str) (l : list (str * str)) : bool :=
  default false (follows t (fun pd _ fo => all_sets pd fo make_memberset_no_empty l)).
Definition steuer_ok (t : str) (l : list (str * str)) : bool :=
  default false (follows t (fun pd fs fo => match get_steuer_sets fs fo with Ok ss => all_sets pd ss make_memberset_no_empty l | _ => false end)).
Definition maps_ok (t : str) : bool :=
  default false (follows t (fun pd fs fo => match get_steuermaps fs fo pd with Ok _ => true | _ => false end)).

(** ** first_sets.rs, follow_sets.rs, steuer_sets.rs, steuer_map.rs *)
(** first_sets.rs:146 test_first_mengen *)
Example first_sets_test_first_mengen : first_ok (lit "start ->   identifier2
                        |identifier3
                        |""a_terminal"";identifier2 -> ""b_terminal""| #;
            identifier3 -> ""c_terminal"";
")
  [(lit "start", lit "abc#"); (lit "identifier2", lit "b#"); (lit "identifier3", lit "c")] = true.
Proof. vm_compute. reflexivity. Qed.
(** first_sets.rs:202 test_first_mengen2 *)
Example first_sets_test_first_mengen2 : first_ok (lit "start      ->  identifier2 identifier3
                            | ""a_terminal"";identifier2 ->  ""b_terminal""| #;
            identifier3 -> ""c_terminal"";
")
  [(lit "identifier2", lit "b#"); (lit "identifier3", lit "c"); (lit "start", lit "abc")] = true.
Proof. vm_compute. reflexivity. Qed.
(** first_sets.rs:254 test_first_mengen3 *)
Example first_sets_test_first_mengen3 : first_ok (lit "start      ->  identifier2 identifier3
                            | ""a_terminal"";identifier2 -> ""b_terminal""| #;
            identifier3 -> ""c_terminal""| #;
")
  [(lit "identifier2", lit "b#"); (lit "identifier3", lit "c#"); (lit "start", lit "abc#")] = true.
Proof. vm_compute. reflexivity. Qed.
(** first_sets.rs:306 test_first_list *)
Example first_sets_test_first_list : first_ok (lit "start      -> list;list -> l_element list_s ;list_s -> l_element list_s| #;l_element -> ""a"";")
  [(lit "start", lit "a"); (lit "list", lit "a"); (lit "list_s", lit "a#"); (lit "l_element", lit "a")] = true.
Proof. vm_compute. reflexivity. Qed.
(** first_sets.rs:426 test_first_mengen_hard *)
Example first_sets_test_first_mengen_hard : first_ok (lit "start      -> identifier2 list identifier3;identifier2 -> ""b_terminal""| #;
            identifier3 -> ""c_terminal""| #;
            list -> liststart listt;
            liststart-> ""list""| #;
            listt -> # | listelement listt;
            listelement -> ""g"" | ""h"";
")
  [(lit "start", lit "lhbgc#"); (lit "identifier3", lit "c#"); (lit "list", lit "ghl#"); (lit "listt", lit "#gh"); (lit "listelement", lit "gh"); (lit "liststart", lit "l#"); (lit "identifier2", lit "b#")] = true.
Proof. vm_compute. reflexivity. Qed.
(** follow_sets.rs:164 test_follow_mengen *)
Example follow_sets_test_follow_mengen : follow_ok (lit "start      -> identifier2 identifier3
                |""a_terminal"";identifier2 -> ""b_terminal""| #;
identifier3 -> ""c_terminal""| #;
")
  [(lit "start", lit "!"); (lit "identifier2", lit "c!"); (lit "identifier3", lit "!")] = true.
Proof. vm_compute. reflexivity. Qed.
(** follow_sets.rs:208 test_follow_mengen2 *)
Example follow_sets_test_follow_mengen2 : follow_ok (lit "start      -> identifier2 identifier3 ""a_terminal"";identifier2 -> ""b_terminal"" | #;
            identifier3 -> ""c_terminal""| #;
")
  [(lit "start", lit "!"); (lit "identifier2", lit "ac"); (lit "identifier3", lit "a")] = true.
Proof. vm_compute. reflexivity. Qed.
(** follow_sets.rs:250 test_follow_mengen3 *)
Example follow_sets_test_follow_mengen3 : follow_ok (lit "start      -> identifier2 list identifier3;identifier2 -> ""b_terminal""| #;
            identifier3 -> ""c_terminal""| #;
            list -> liststart listt;
            liststart-> ""list""| #;
            listt -> # | listelement listt;
            listelement -> ""g"" | ""h"";
")
  [(lit "start", lit "!"); (lit "identifier3", lit "!"); (lit "list", lit "c!"); (lit "listt", lit "c!"); (lit "listelement", lit "c!gh"); (lit "liststart", lit "c!gh"); (lit "identifier2", lit "lc!gh")] = true.
Proof. vm_compute. reflexivity. Qed.
(** follow_sets.rs:325 test_follow_list *)
Example follow_sets_test_follow_list : follow_ok (lit "start      -> list;list -> l_element list_s ;list_s -> l_element list_s| #;l_element -> ""a"";")
  [(lit "start", lit "!"); (lit "list", lit "!"); (lit "list_s", lit "!"); (lit "l_element", lit "a!")] = true.
Proof. vm_compute. reflexivity. Qed.
(** steuer_sets.rs:44 test_steuer_sets *)
Example steuer_sets_test_steuer_sets : steuer_ok (lit "start      -> identifier1
            identifier2;identifier1 -> ""a_terminal""| #;
            identifier2 -> ""b_terminal""| #;
")
  [(lit "start", lit "!ab"); (lit "identifier1", lit "ab!"); (lit "identifier2", lit "b!")] = true.
Proof. vm_compute. reflexivity. Qed.
(** steuer_sets.rs:88 test_steuer_sets_list *)
Example steuer_sets_test_steuer_sets_list : steuer_ok (lit "start      -> list ;list -> element list_s ;list_s -> element list_s| #;element -> ""a"";")
  [(lit "list", lit "a"); (lit "list_s", lit "a!"); (lit "element", lit "a")] = true.
Proof. vm_compute. reflexivity. Qed.
(** steuer_sets.rs:132 test_steuer_sets_optional_list *)
Example steuer_sets_test_steuer_sets_optional_list : steuer_ok (lit "start      -> optional_list ""ende"";optional_list-> list|#;
            list -> element list_s ;list_s -> element list_s| #;element -> ""a"";")
  [(lit "list", lit "a"); (lit "list_s", lit "ae"); (lit "element", lit "a"); (lit "optional_list", lit "ae")] = true.
Proof. vm_compute. reflexivity. Qed.
(** steuer_sets.rs:185 test_more_whitespace_shenanigans.  Fails: parse_rules no longer accepts the global directive. *)
Example steuer_sets_test_more_whitespace_shenanigans : data_of (lit "$IGNORE: whitespaces;start -> terms;terms -> term terms_s;terms_s -> term terms_s | #;term -> add|sub|number|print;print -> ""print"";add -> ""+"";sub -> ""-"";number-> digit number_s;number_s -> number_s_ | #;number_s_ ->digit number_s;digit -> ""0""|""1""|""2""|""3""|""4""|""5""|""6""|""7""|""8""|""9"";whitespaces -> whitespace whitespaces_s;whitespaces_s -> whitespace whitespaces_s| #;whitespace -> "" "";") = None.
Proof. vm_compute. reflexivity. Qed.
(** steuer_map.rs:173 test_1 *)
Example steuer_map_test_1 : maps_ok (lit "start -> a|b;a -> ""astring"";b -> ""bstring"";") = true.
Proof. vm_compute. reflexivity. Qed.
(** steuer_map.rs:196 test_two_with_same_first *)
Example steuer_map_test_two_with_same_first : maps_ok (lit "start -> a a_a;a -> ""a"";a_a -> ""a"";") = true.
Proof. vm_compute. reflexivity. Qed.
(** steuer_map.rs:219 test_steuer_map_list *)
Example steuer_map_test_steuer_map_list : maps_ok (lit "start      -> list ;list -> element list_s ;list_s -> element list_s| #;element -> ""a"";") = true.
Proof. vm_compute. reflexivity. Qed.
(** steuer_map.rs:242 test_more_whitespace_shenanigans.  Fails: parse_rules is not called, so there is no element start. *)
Example steuer_map_test_more_whitespace_shenanigans :
  get_element_nt_index (rp_pd (rp_new NullVm (lit "$IGNORE: whitespaces;start -> zero zero;terms -> term terms_s;terms_s -> term terms_s | #;term -> zero;zero -> ""0"";whitespaces -> whitespace whitespaces_s;whitespaces_s -> whitespace whitespaces_s| #;whitespace -> "" "";"))) (lit "start") = None.
Proof. vm_compute. reflexivity. Qed.
(** steuer_map.rs:271 test_more_whitespace_shenanigans3.  Fails: parse_rules is not called, so there is no element start. *)
Example steuer_map_test_more_whitespace_shenanigans3 :
  get_element_nt_index (rp_pd (rp_new NullVm (lit "$IGNORE: whitespaces;start  -> terms;terms -> term terms_s;terms_s -> term terms_s | #;term -> number;number-> $[IGNORE:#] zero number_s;number_s -> number_s_ | #;number_s_ -> $[IGNORE:#] zero number_s;zero ->  ""0"";whitespaces -> whitespace whitespaces_s;whitespaces_s -> whitespace whitespaces_s| #;whitespace -> "" "";"))) (lit "start") = None.
Proof. vm_compute. reflexivity. Qed.
Definition partial_ok (names : list str) (els : list nat) (sets : list str) (expected : str) : bool :=
  let pd := fold_left (fun pd x => snd (get_or_add_element_key pd (x, NonTerminal))) names (pd_new : ParserData (vm_instr NullVm)) in
  let fs : NamedSets := list_to_map (zip (seq 0 (length sets)) (map make_memberset sets)) in
  match first_set_of_partial pd els fs with Ok s => bool_decide (s = make_memberset expected) | _ => false end.
(** first_sets.rs:369 test_first_set_of_partial *)
Example first_sets_test_first_set_of_partial : partial_ok [lit "0"] [0] [lit "c#"] (lit "c#") = true.
Proof. vm_compute. reflexivity. Qed.
(** first_sets.rs:383 test_first_set_of_partial2 *)
Example first_sets_test_first_set_of_partial2 : partial_ok [lit "0"; lit "1"] [0; 1] [lit "c#"; lit "d#"] (lit "cd#") = true.
Proof. vm_compute. reflexivity. Qed.
(** first_sets.rs:402 test_first_set_of_partial3 *)
Example first_sets_test_first_set_of_partial3 : partial_ok [lit "0"; lit "1"; lit "2"] [0; 1; 2] [lit "c#"; lit "d"; lit "e#"] (lit "cd") = true.
Proof. vm_compute. reflexivity. Qed.

(** ** test_helpers.rs *)
(** test_helpers.rs:40 test_make_memberset *)
Example test_make_memberset : make_memberset (lit "ab!#") = {[EChar 97; EChar 98; EEmpty; ETerminate]}.
Proof. apply (bool_decide_unpack _). vm_compute. exact Logic.I. Qed.
(** test_helpers.rs:53 test_make_memberset_no_empty *)
Example test_make_memberset_no_empty : make_memberset_no_empty (lit "ab!#") = {[MChar 97; MChar 98; MChar 35; MTerminate]}.
Proof. apply (bool_decide_unpack _). vm_compute. exact Logic.I. Qed.

(** ** parse_funcs.rs *)
Definition reading {A} (f : st (PP str) ParserError A) (t : str) : outcome ParserError A * str :=
  let '(o, p) := f (pp_new t None None) in (o, pp_inner p).
(** parse_funcs.rs:144 test_parse_isize_negative *)
Example test_parse_isize_negative : reading (parse_isize base_tp) (lit "-12") = (Ok (-12)%Z, []).
Proof. vm_compute. reflexivity. Qed.
(** parse_funcs.rs:152 test_parse_isize_positive *)
Example test_parse_isize_positive : reading (parse_isize base_tp) (lit "3") = (Ok 3%Z, []).
Proof. vm_compute. reflexivity. Qed.
(** parse_funcs.rs:160 test_parse_isize_zero *)
Example test_parse_isize_zero : reading (parse_isize base_tp) (lit "0") = (Ok 0%Z, []).
Proof. vm_compute. reflexivity. Qed.
(** parse_funcs.rs:168 test_parse_isize_stops_before_non_digit *)
Example test_parse_isize_stops_before_non_digit : reading (parse_isize base_tp) (lit "-12x") = (Ok (-12)%Z, lit "x").
Proof. vm_compute. reflexivity. Qed.
(** parse_funcs.rs:177 test_parse_isize_rejects_non_digit_start *)
Example test_parse_isize_rejects_non_digit_start :
  (reading (parse_isize base_tp) (lit "+12")).1 = Err (UnexpectedCharError 43 0 (lit "digit or - expected")).
Proof. vm_compute. reflexivity. Qed.
(** parse_funcs.rs:192 test_parse_isize_rejects_sign_without_digits *)
Example test_parse_isize_rejects_sign_without_digits : (reading (parse_isize base_tp) (lit "-")).1 = Err (EndOfCharsError 1).
Proof. vm_compute. reflexivity. Qed.
(** parse_funcs.rs:203 test_parse_usize_positive *)
Example test_parse_usize_positive : reading (parse_usize base_tp) (lit "123") = (Ok 123%N, []).
Proof. vm_compute. reflexivity. Qed.
(** parse_funcs.rs:211 test_parse_usize_zero *)
Example test_parse_usize_zero : reading (parse_usize base_tp) (lit "0") = (Ok 0%N, []).
Proof. vm_compute. reflexivity. Qed.
(** parse_funcs.rs:219 test_parse_usize_stops_before_non_digit *)
Example test_parse_usize_stops_before_non_digit : reading (parse_usize base_tp) (lit "42a") = (Ok 42%N, lit "a").
Proof. vm_compute. reflexivity. Qed.
(** parse_funcs.rs:228 test_parse_usize_rejects_negative_sign *)
Example test_parse_usize_rejects_negative_sign :
  (reading (parse_usize base_tp) (lit "-12")).1 = Err (UnexpectedCharError 45 0 (lit "digit expected")).
Proof. vm_compute. reflexivity. Qed.
(** parse_funcs.rs:243 test_parse_usize_requires_digit *)
Example test_parse_usize_requires_digit : (reading (parse_usize base_tp) []).1 = Err (EndOfCharsError 0).
Proof. vm_compute. reflexivity. Qed.

(** ** rule_parsing.rs *)
(** rule_parsing.rs:433-474 test_parse_terminal* *)
Example test_parse_terminal : reading parse_terminal (lit """contents""") = (Ok (lit "contents"), []).
Proof. vm_compute. reflexivity. Qed.
Example test_parse_terminal_escaped_quote : reading parse_terminal (lit """cont\""ents""") = (Ok (lit "cont\""ents"), []).
Proof. vm_compute. reflexivity. Qed.
Example test_parse_terminal_escaped_quote2 : reading parse_terminal (lit """cont""ents""") = (Ok (lit "cont"), lit "ents""").
Proof. vm_compute. reflexivity. Qed.
Example test_parse_terminal_escaped_quote_and_new_line : reading parse_terminal (lit """asdf\n\""sdf""") = (Ok (lit "asdf\n\""sdf"), []).
Proof. vm_compute. reflexivity. Qed.
Example test_parse_terminal_fail_on_missing_trailing_quote :
  match (reading parse_terminal (lit """content")).1 with Ok _ => false | _ => true end = true.
Proof. vm_compute. reflexivity. Qed.
(** rule_parsing.rs:478-502 test_parse_identifier* *)
Example test_parse_identifier : reading (parse_var_name base_tp) (lit "IDENTIFIER") = (Ok (lit "IDENTIFIER"), []).
Proof. vm_compute. reflexivity. Qed.
Example test_parse_identifier2 : reading (parse_var_name base_tp) (lit "identifier") = (Ok (lit "identifier"), []).
Proof. vm_compute. reflexivity. Qed.
Example test_parse_identifier3 : reading (parse_var_name base_tp) (lit "identifier not") = (Ok (lit "identifier"), lit " not").
Proof. vm_compute. reflexivity. Qed.
Notation NT x := (lit x, NonTerminal).
Notation T x := (lit x, Terminal).
(** the elements of a production, [None] for [Production::Empty] *)
Definition elements_of (pd : ParserData (vm_instr NullVm)) (p : Production) : option (list (option ElementVerbose)) :=
  match p with NotEmpty x => Some (map (get_element_verbose pd) x) | Empty => None end.
(** rule_parsing.rs:505 test_parse_production *)
Example test_parse_production :
  match parse_production NullVm (rp_new NullVm (lit "identifier ""terminal"" identifier2 ""terminal2""")) with
  | (Ok p, s) => elements_of (rp_pd s) p
  | _ => None
  end = Some [Some (NT "identifier"); Some (T "terminal"); Some (NT "identifier2"); Some (T "terminal2")].
Proof. vm_compute. reflexivity. Qed.
(** rule_parsing.rs:547 test_parse_production2 *)
Example test_parse_production2 :
  match parse_possible_productions NullVm (rp_new NullVm (lit "identifier ""terminal""
        |   identifier2 ""terminal""")) with
  | (Ok ps, s) => map (elements_of (rp_pd s)) ps
  | _ => []
  end = [Some [Some (NT "identifier"); Some (T "terminal")]; Some [Some (NT "identifier2"); Some (T "terminal")]].
Proof. vm_compute. reflexivity. Qed.
(** rule_parsing.rs:599 test_parse_rule *)
Example test_parse_rule :
  match parse_rule NullVm (rp_new NullVm (lit "identifier ->  identifier2;")) with
  | (Ok (name, r), s) => Some (get_element_verbose (rp_pd s) name, map (elements_of (rp_pd s)) (possible_productions r))
  | _ => None
  end = Some (Some (NT "identifier"), [Some [Some (NT "identifier2")]]).
Proof. vm_compute. reflexivity. Qed.
Definition rule_at (pd : ParserData (vm_instr NullVm)) (k : nat) : list (option (list (option ElementVerbose))) :=
  match pd_rules pd !! k with Some r => map (elements_of pd) (possible_productions r) | None => [] end.
Definition rule_of (pd : ParserData (vm_instr NullVm)) (x : str) : list (option (list (option ElementVerbose))) :=
  match get_rule_by_element_verbose pd x with Some r => map (elements_of pd) (possible_productions r) | None => [] end.
(** rule_parsing.rs:627 test_parse_rules *)
Example test_parse_rules : let pd := data_after (lit "rule1      -> rule2
               |rule3;
rule2 -> ""b_terminal""| ""c_terminal"";") in
  rule_at pd 0 = [Some [Some (NT "rule2")]; Some [Some (NT "rule3")]] /\ rule_at pd 1 = [Some [Some (T "b_terminal")]; Some [Some (T "c_terminal")]].
Proof. vm_compute. split; reflexivity. Qed.
(** rule_parsing.rs:697 test_parse_rules2 (should_panic) *)
Example test_parse_rules2 : data_of (lit "rule1      -> rule2
               |rule3;
rule2 -> ""b_terminal""| ""c_terminal""; asdf") = None.
Proof. vm_compute. reflexivity. Qed.
(** rule_parsing.rs:711 test_parse_rules3 *)
Example test_parse_rules3 : match data_of (lit "start ->   identifier2
                        |identifier3
                        |""a_terminal"";identifier2 -> ""b_terminal""| #;
            identifier3 -> ""c_terminal"";
") with Some _ => true | None => false end = true.
Proof. vm_compute. reflexivity. Qed.
(** rule_parsing.rs:747 test_parse_rules4 *)
Example test_parse_rules4 : let pd := data_after (lit "rule1      -> rule2
               |rule3;

rule2 -> ""b_terminal""| ""c_terminal"";") in
  rule_at pd 0 = [Some [Some (NT "rule2")]; Some [Some (NT "rule3")]] /\ rule_at pd 1 = [Some [Some (T "b_terminal")]; Some [Some (T "c_terminal")]].
Proof. vm_compute. split; reflexivity. Qed.
(** rule_parsing.rs:786 test_parse_rules5 *)
Example test_parse_rules5 : let pd := data_after (lit "start      -> not_end | #;not_end -> ""a"" start ;") in
  rule_at pd 0 = [Some [Some (NT "not_end")]; None] /\ rule_at pd 1 = [Some [Some (T "a"); Some (NT "start")]].
Proof. vm_compute. split; reflexivity. Qed.
(** rule_parsing.rs:814-955 test_rule_parser_discarder, 2, 3.  Fail: parse_rules no longer
    accepts the global directive; in the first test there is no rule then. *)
Example test_rule_parser_discarder : let pd := data_after (lit "$IGNORE: whitespace; start      -> ""a"" ""b"";whitespace -> "" "";") in
  get_rule_by_element_verbose pd (lit "start") = None.
Proof. vm_compute. reflexivity. Qed.
Example test_rule_parser_discarder2 : data_of (lit "$IGNORE: whitespaces; start      -> ""a"" ""b"" ""c"" ;whitespaces -> whitespace whitespaces_s ;whitespaces_s -> whitespace whitespaces_s| #;whitespace -> "" "";") = None.
Proof. vm_compute. reflexivity. Qed.
Example test_rule_parser_discarder3 : data_of (lit "$IGNORE: whitespaces; start      -> ""a"" var ;var -> $[IGNORE:#] ""b"" ""c"";whitespaces -> whitespace whitespaces_s ;whitespaces_s -> whitespace whitespaces_s| #;whitespace -> "" "";") = None.
Proof. vm_compute. reflexivity. Qed.
(** rule_parsing.rs:958 test_parse_rules_list *)
Example test_parse_rules_list :
  match data_of (lit "start      -> list;list -> l_element list_s ;list_s -> l_element list_s| #;l_element -> ""a"";") with
  | Some pd => map (rule_of pd) [lit "start"; lit "list"; lit "list_s"; lit "l_element"]
  | None => []
  end = [[Some [Some (NT "list")]]; [Some [Some (NT "l_element"); Some (NT "list_s")]];
         [Some [Some (NT "l_element"); Some (NT "list_s")]; None]; [Some [Some (T "a")]]].
Proof. vm_compute. reflexivity. Qed.
Definition derivative (pd : ParserData (vm_instr NullVm)) (x y : str) : option bool :=
  match get_element_nt_index pd x, get_element_nt_index pd y with
  | Some i, Some j => match check_is_derivative NullVm (element_types pd) (pd_rules pd) i j with Ok b => Some b | _ => None end
  | _, _ => None
  end.
(** rule_parsing.rs:1026 test_is_derivative, and 1105 test_is_derivative1_1 *)
Example test_is_derivative : let pd := data_after (lit "start      -> list;list -> l_element list_s ;list_s -> l_element list_s| #;l_element -> ""a"";") in
  map (fun '(x, y) => derivative pd x y)
    [(lit "start", lit "list"); (lit "start", lit "list_s"); (lit "start", lit "l_element"); (lit "list", lit "list_s"); (lit "list", lit "l_element"); (lit "l_element", lit "start")]
  = [Some true; Some true; Some true; Some true; Some true; Some false].
Proof. vm_compute. reflexivity. Qed.
(** rule_parsing.rs:1132 test_is_derivative2 *)
Example test_is_derivative2 : let pd := data_after (lit "start      -> not_end | #;not_end -> ""a"" start ;") in
  map (fun '(x, y) => derivative pd x y) [(lit "start", lit "not_end"); (lit "not_end", lit "start")] = [Some true; Some true].
Proof. vm_compute. reflexivity. Qed.

(** ** script_parser.rs *)
(** parse, and the data of the nodes at some paths *)
Definition script_run (rules script : str) : outcome ParserError (Tree str) :=
  match new_from_text Checked NullVm (mkFuels 60 1000) rules with
  | Ok ps => fst (parse NullVm ps 300 script (vm_new_state NullVm))
  | _ => Panic
  end.
Definition passes (rules script : str) : bool := match script_run rules script with Ok _ => true | _ => false end.
Definition data_at (rules script : str) (path : list nat) : outcome TreeError (option str) :=
  match script_run rules script with
  | Ok t => let* o := get_by_path_or_none t (mkNodeId 0 0) path in Ok (option_map n_data o)
  | _ => Panic
  end.
(** script_parser.rs:341 test_script_parser *)
Example test_script_parser : passes (lit "start      -> identifier1 identifier2;identifier1 -> ""a_terminal""| #;
            identifier2 -> ""b_terminal""| #;
") (lit "a_terminalb_terminal") = true.
Proof. vm_compute. reflexivity. Qed.
(** script_parser.rs:355 test_script_parser2 *)
Example test_script_parser2 :
  match script_run (lit "start      -> identifier1 identifier2;identifier1 -> ""abcde""| #;
            identifier2 -> ""zzzzzz""| #;
") (lit "abcdeg") with
  | Err (UnexpectedCharError chr pos _) => Some (chr, pos)
  | _ => None
  end = Some (103%N, 5).
Proof. vm_compute. reflexivity. Qed.
(** script_parser.rs:383 test_script_parser3 *)
Example test_script_parser3 : passes (lit "start      -> identifier1 identifier2;identifier1 -> ""a_terminal""| #;
            identifier2 -> ""b_terminal""| ""c_terminal"";
") (lit "a_terminalc_terminal") = true.
Proof. vm_compute. reflexivity. Qed.
(** script_parser.rs:397 test_script_parser_graph *)
Example test_script_parser_graph : data_at (lit "start      -> identifier1 identifier2;identifier1 -> ""a_terminal""| #;
            identifier2 -> ""b_terminal""| ""c_terminal"";
") (lit "a_terminalc_terminal") [0; 0] = Ok (Some (lit "a_terminal")).
Proof. vm_compute. reflexivity. Qed.
(** script_parser.rs:419 test_script_parser_graph2 *)
Example test_script_parser_graph2 : data_at (lit "start      -> identifier1 identifier2;identifier1 -> ""a_terminal""| #;
            identifier2 -> ""b_terminal""| ""c_terminal"";
") (lit "c_terminal") [0; 0] = Ok None.
Proof. vm_compute. reflexivity. Qed.
(** script_parser.rs:437 test_script_parser_graph3 *)
Example test_script_parser_graph3 : data_at (lit "start      -> identifier1;identifier1 -> ""a"" identifier2;
            identifier2 -> ""b"";
") (lit "ab") [0; 1; 0] = Ok (Some (lit "b")).
Proof. vm_compute. reflexivity. Qed.
(** script_parser.rs:457 test_parse_list *)
Example test_parse_list : passes (lit "start      -> list;list -> l_element list_s ;list_s -> l_element list_s| #;l_element -> ""a"";") (lit "aaa") = true.
Proof. vm_compute. reflexivity. Qed.
(** script_parser.rs:472 test_parse_list2 *)
Example test_parse_list2 : passes (lit "start      -> list;list -> l_element list_s ;list_s -> l_element list_s| #;l_element -> ""a"";") (lit "a") = true.
Proof. vm_compute. reflexivity. Qed.
(** script_parser.rs:487-589 test_script_parser_discarder, 2, 3, 4.  Fail: the parser cannot
    be built, because parse_rules no longer accepts the global directive. *)
Example test_script_parser_discarder : new_from_text Checked NullVm (mkFuels 60 1000) (lit "$IGNORE: whitespace; start      -> ""a"" ""b"";whitespace -> "" "";") = Panic.
Proof. vm_compute. reflexivity. Qed.
Example test_script_parser_discarder2 : new_from_text Checked NullVm (mkFuels 60 1000) (lit "$IGNORE: whitespace; start      -> ""a"" ""b"";whitespace -> "" ""| #;") = Panic.
Proof. vm_compute. reflexivity. Qed.
Example test_script_parser_discarder3 : new_from_text Checked NullVm (mkFuels 60 1000) (lit "$IGNORE: whitespaces; start      -> ""a"" ""b"" ""c"" ;whitespaces -> whitespace whitespaces_s ;whitespaces_s -> whitespace whitespaces_s| #;whitespace -> "" "";") = Panic.
Proof. vm_compute. reflexivity. Qed.
Example test_script_parser_discarder4 : new_from_text Checked NullVm (mkFuels 60 1000) (lit "$IGNORE: whitespaces; start      -> a_or_b ""c"" ;a_or_b -> ""a""| ""b"";
            whitespaces -> whitespace whitespaces_s ;whitespaces_s -> whitespace whitespaces_s| #;whitespace -> "" "";") = Panic.
Proof. vm_compute. reflexivity. Qed.
(** script_parser.rs:592 test_counting_vm *)
Example test_counting_vm :
  match new_from_text Checked (CountingVm Checked) (mkFuels 60 1000) (lit "start      -> count count count ;count -> ""a"" {} ;") with
  | Ok ps => match parse (CountingVm Checked) ps 300 (lit "aaa") (vm_new_state (CountingVm Checked)) with (Ok _, v) => Some v | _ => None end
  | _ => None
  end = Some 3%N.
Proof. vm_compute. reflexivity. Qed.
(** lib.rs:17-36, the example of the documentation *)
Example doc_example : passes (lit "start -> ""hello"" ""world"";") (lit "helloworld") = true.
Proof. vm_compute. reflexivity. Qed.

(** ** simple_graph.rs *)
Definition graph_of (l : list str) : Graph str := fold_left (fun g x => snd (graph_add_node g x)) l graph_new.
Definition added (g : outcome Empty_set (Graph str)) (s t : nat) (id : N) : outcome Empty_set (bool * Graph str) := let* g := g in try_add_edge_with_id g s t id.
Definition answer (o : outcome Empty_set (bool * Graph str)) : option bool := match o with Ok (b, _) => Some b | _ => None end.
Definition graph_in (o : outcome Empty_set (bool * Graph str)) : outcome Empty_set (Graph str) := let* '(_, g) := o in Ok g.
Definition found (g : outcome Empty_set (Graph str)) (s : nat) (id : N) : outcome Empty_set (option str) :=
  let* g := g in let* o := find_node g s id in Ok (option_map nd_data o).
Definition three : list str := [lit "Hello, "; lit "World"; lit "Mr.Mouse"].
(** simple_graph.rs:241 edge_id_add *)
Example edge_id_add : answer (added (graph_add_edge Checked (graph_of three) 0 1) 0 2 0) = Some false.
Proof. vm_compute. reflexivity. Qed.
(** simple_graph.rs:252 edge_id_add2 *)
Example edge_id_add2 : answer (added (graph_add_edge Checked (graph_of three) 0 1) 0 2 1) = Some true.
Proof. vm_compute. reflexivity. Qed.
(** simple_graph.rs:263 edge_id_add3 *)
Example edge_id_add3 : let o := added (graph_add_edge Checked (graph_of (three ++ [lit "Mrs.Mouse"])) 0 1) 0 3 2 in
  answer o = Some true /\ answer (added (graph_in o) 0 2 1) = Some true.
Proof. vm_compute. split; reflexivity. Qed.
Notation two := (Ok (graph_of [lit "Hello, "; lit "World"])).
(** simple_graph.rs:275 edge_id_add4 *)
Example edge_id_add4 : answer (added two 0 1 0) = Some true.
Proof. vm_compute. reflexivity. Qed.
(** simple_graph.rs:283 edge_id_add5 *)
Example edge_id_add5 : answer (added two 0 1 0) = Some true /\ answer (added (graph_in (added two 0 1 0)) 1 0 0) = Some true.
Proof. vm_compute. split; reflexivity. Qed.
(** simple_graph.rs:292 edge_id_find *)
Example edge_id_find : found (graph_in (added two 0 1 0)) 0 0 = Ok (Some (lit "World")).
Proof. vm_compute. reflexivity. Qed.
(** simple_graph.rs:301 edge_id_find2 *)
Example edge_id_find2 : found (graph_in (added two 0 1 0)) 0 1 = Ok None.
Proof. vm_compute. reflexivity. Qed.
(** simple_graph.rs:310 edge_id_find3 *)
Example edge_id_find3 : found (Ok (graph_of [lit "Hello, "])) 0 1 = Ok None.
Proof. vm_compute. reflexivity. Qed.
(** simple_graph.rs:317 edge_id_find4 *)
Example edge_id_find4 :
  let g1 := added (Ok (graph_of [lit "Hello, "; lit "World"; lit "Mr. Mouse"; lit "Mrs. Mouse"])) 0 1 0 in
  let g2 := added (graph_in g1) 0 2 10 in
  let g3 := added (graph_in g2) 0 3 1 in
  answer g1 = Some true /\ answer g2 = Some true /\ found (graph_in g2) 0 0 = Ok (Some (lit "World")) /\ found (graph_in g2) 0 1 = Ok None /\
  found (graph_in g2) 0 10 = Ok (Some (lit "Mr. Mouse")) /\ answer g3 = Some true /\ found (graph_in g3) 0 1 = Ok (Some (lit "Mrs. Mouse")).
Proof. vm_compute. repeat split. Qed.

(** ** tree.rs *)
Definition tree_data (t : Tree str) (id : NodeId) : outcome TreeError str := let* n := get_node t id in Ok (n_data n).
Definition is_err {E A} (o : outcome E A) : bool := match o with Err _ => true | _ => false end.
Definition with_root {A} (x : str) (k : NodeId -> Tree str -> option A) : option A :=
  match add_node x None (tree_new : Tree str) with (Ok id, t) => k id t | _ => None end.
(** tree.rs:317 get_node_does_not_exists *)
Example get_node_does_not_exists : is_err (get_node (tree_new : Tree str) (mkNodeId 0 0)) = true.
Proof. vm_compute. reflexivity. Qed.
(** tree.rs:324 test_tree_add_node *)
Example test_tree_add_node : with_root (lit "test") (fun id t => Some (tree_data t id)) = Some (Ok (lit "test")).
Proof. vm_compute. reflexivity. Qed.
(** tree.rs:331 test_tree_add_delete_node *)
Example test_tree_add_delete_node : with_root (lit "test") (fun id t => Some (is_err (get_node (snd (remove_branch id t)) id))) = Some true.
Proof. vm_compute. reflexivity. Qed.
(** tree.rs:340 test_tree_add_delete_add_node *)
Example test_tree_add_delete_add_node :
  with_root (lit "remove") (fun id t =>
    match add_node (lit "test") None (snd (remove_branch id t)) with (Ok id2, t2) => Some (tree_data t2 id2) | _ => None end) = Some (Ok (lit "test")).
Proof. vm_compute. reflexivity. Qed.
(** tree.rs:350 test_tree_add_delete_add_node2 *)
Example test_tree_add_delete_add_node2 :
  with_root (lit "remove") (fun id t =>
    match add_node (lit "test") None (snd (remove_branch id t)) with (Ok _, t2) => Some (is_err (get_node t2 id)) | _ => None end) = Some true.
Proof. vm_compute. reflexivity. Qed.
(** tree.rs:362 test_tree_add_node_child *)
Example test_tree_add_node_child :
  with_root (lit "test") (fun id t =>
    match add_node (lit "child") (Some id) t with
    | (Ok _, t2) => match get_children t2 id with Ok (c :: _) => Some (tree_data t2 c) | _ => None end
    | _ => None
    end) = Some (Ok (lit "child")).
Proof. vm_compute. reflexivity. Qed.
(** tree.rs:372 test_tree_get_by_path *)
Example test_tree_get_by_path :
  with_root (lit "test") (fun id t =>
    match add_node (lit "child") (Some id) t with
    | (Ok _, t2) => match get_by_path_or_none t2 id [0] with Ok (Some n) => Some (n_data n) | _ => None end
    | _ => None
    end) = Some (lit "child").
Proof. vm_compute. reflexivity. Qed.
