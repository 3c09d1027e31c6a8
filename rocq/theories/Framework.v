(** * The test framework of the project

    tests/framework: how tests are declared, registered, run, reported and listed, and what
    tests/discover_tests.cmake makes of the list.  Nothing here uses the model of the library.

    Simplified: a function of a test is given by what it does that the framework can see
    ([stmt]), that is, by the values its assertions have in the one run of the program; functions
    that do not end are left out.  [std::size_t] counts of checks and errors are natural
    numbers.  Names and arguments are C strings (all of them are constructed from [const char*]),
    so they have no character 0; nothing depends on that here. *)

From Coq Require Import String Ascii DecimalString List Arith NArith Bool Lia.
Import ListNotations.
Open Scope string_scope.
Open Scope list_scope.

(** ** Results (TestResult.h:12-37, Error.h:9-26) *)

(** std::source_location: what is printed of it *)
Record location := Loc { l_file : string; l_line : nat }.

(** Error.h:11-20 *)
Inductive etime := CompileTime | RunTime.
Inductive efatality := NonFatal | Fatal.

(** Error.h:22-25 *)
Record error := Err { e_time : etime; e_fatality : efatality; e_message : string; e_location : location }.

(** TestResult.h:12-23 *)
Record tresult := TResult { tr_name : string; tr_checks : nat; tr_errors : list error }.

(** TestResult.h:25-37 *)
Record fresult := FResult { fr_name : string; fr_passes : list tresult; fr_failures : list tresult }.

(** TestResult.cpp:27-33 *)
Definition push_back (f : fresult) (r : tresult) : fresult :=
  match tr_errors r with
  | [] => FResult (fr_name f) (fr_passes f ++ [r]) (fr_failures f)
  | _ :: _ => FResult (fr_name f) (fr_passes f) (fr_failures f ++ [r])
  end.

(** ** Text *)

Definition newline : string := String (ascii_of_nat 10) EmptyString.
Definition dquote : ascii := ascii_of_nat 34.
Definition backslash : ascii := ascii_of_nat 92.
Definition chr (c : ascii) : string := String c EmptyString.

(** What [operator<<] prints for a std::size_t *)
Definition dec (n : nat) : string := NilEmpty.string_of_uint (Nat.to_uint n).

(** std::quoted: the delimiter and the escape character are escaped *)
Fixpoint escape (s : string) : string :=
  match s with
  | EmptyString => EmptyString
  | String c r =>
      if Ascii.eqb c dquote || Ascii.eqb c backslash then String backslash (String c (escape r))
      else String c (escape r)
  end.
Definition quoted (s : string) : string := (chr dquote ++ escape s ++ chr dquote)%string.

Definition plural (n : nat) : string := if Nat.eqb n 1 then "" else "s".

(** TestResult.cpp:9-15 *)
Definition print_brief_test (r : tresult) : string :=
  ("    Test " ++ quoted (tr_name r) ++ " - " ++ dec (tr_checks r) ++ " checks / " ++ dec (List.length (tr_errors r)) ++
   " error" ++ plural (List.length (tr_errors r)) ++ "." ++ newline)%string.

(** Error.cpp:8-17 *)
Definition show_time (t : etime) : string := match t with CompileTime => "Compile-time" | RunTime => "Run-time" end.
(** Error.cpp:19-28 *)
Definition show_fatality (f : efatality) : string := match f with NonFatal => "non-fatal" | Fatal => "fatal" end.

(** Error.cpp:30-36 *)
Definition print_error (e : error) : string :=
  ("[" ++ show_time (e_time e) ++ " " ++ show_fatality (e_fatality e) ++ " error]" ++ newline ++
   "    Message: " ++ e_message e ++ newline ++
   "    File: " ++ l_file (e_location e) ++ newline ++
   "    Line: " ++ dec (l_line (e_location e)) ++ newline)%string.

(** TestResult.cpp:17-25 *)
Definition print_errors_test (r : tresult) : string :=
  ("Test " ++ quoted (tr_name r) ++ " failed with " ++ dec (List.length (tr_errors r)) ++
   " error" ++ plural (List.length (tr_errors r)) ++ "." ++ newline ++
   String.concat "" (map print_error (tr_errors r)))%string.

(** TestResult.cpp:35-41 *)
Definition print_brief_fixture (f : fresult) : string :=
  ("Fixture " ++ quoted (fr_name f) ++ " - " ++ dec (List.length (fr_passes f) + List.length (fr_failures f)) ++
   " tests / " ++ dec (List.length (fr_failures f)) ++ " failures." ++ newline ++ newline)%string.

(** TestResult.cpp:43-51 *)
Definition print_errors_fixture (f : fresult) : string :=
  ("Fixture " ++ quoted (fr_name f) ++ newline ++
   String.concat "" (map print_errors_test (fr_failures f)) ++ newline)%string.

(** ** What a test does *)

(** [SAssert]: ASSERT(condition, message) (Assert.h:17-22), with the value the condition has at
    run time.  [SCall]: the call of a function or lambda.  [STry]: a block [try { } catch (...) { }]
    of the same function.  [SRun]: another test is run (through [Runner::exec]).  [SThrow]: an
    exception. *)
Inductive stmt :=
| SAssert (condition : bool) (message : string) (location : location)
| SCall (body : list stmt)
| STry (body : list stmt)
| SRun (name : string) (body : list stmt)
| SThrow.

(** Test.h:16-38: a name and a function *)
Record test := Test { t_name : string; t_func : list stmt }.

(** ** The state of the program *)

(** The [TestResult] objects that live (each [Test::run] has one, the innermost last), the static
    pointer [_current_result] (TestResult.h:56) as an index of one of them or null, and what has
    been written to std::cout. *)
Record world := World { w_objs : list tresult; w_cur : option nat; w_out : string }.

(** [Throws]: an exception is on its way up; [NullDeref]: undefined behaviour. *)
Inductive fin (A : Type) := Go (a : A) | Throws (w : world) | NullDeref.
Arguments Go {A} _. Arguments Throws {A} _. Arguments NullDeref {A}.

Definition put (s : string) (w : world) : world := World (w_objs w) (w_cur w) (w_out w ++ s)%string.

Fixpoint update {A} (k : nat) (f : A -> A) (l : list A) : list A :=
  match l, k with
  | [], _ => []
  | x :: r, 0 => f x :: r
  | x :: r, S k' => x :: update k' f r
  end.

(** TestResult.cpp:69-73: the count goes up, whatever the condition *)
Definition check (w : world) : fin world :=
  match w_cur w with
  | None => NullDeref
  | Some k => Go (World (update k (fun r => TResult (tr_name r) (S (tr_checks r)) (tr_errors r)) (w_objs w)) (w_cur w) (w_out w))
  end.

(** TestResult.cpp:64-67; the location is that of the ASSERT (default argument, TestResult.h:51) *)
Definition add_error (m : string) (l : location) (w : world) : fin world :=
  match w_cur w with
  | None => NullDeref
  | Some k => Go (World (update k (fun r => TResult (tr_name r) (tr_checks r) (tr_errors r ++ [Err RunTime Fatal m l])) (w_objs w)) (w_cur w) (w_out w))
  end.

Definition bind {A B} (x : fin A) (f : A -> fin B) : fin B :=
  match x with Go a => f a | Throws w => Throws w | NullDeref => NullDeref end.

(** The end of [TestResultContext] (TestResult.cpp:59-62), and then of the [TestResult] *)
Definition leave (old : option nat) (w : world) : world := World (removelast (w_objs w)) old (w_out w).

(** [true]: the function has returned *)
Fixpoint exec_stmt (s : stmt) (w : world) {struct s} : fin (world * bool) :=
  let exec_body := fix exec_body (l : list stmt) (w : world) {struct l} : fin (world * bool) :=
    match l with
    | [] => Go (w, false)
    | s :: r => bind (exec_stmt s w) (fun x => if snd x then Go x else exec_body r (fst x))
    end in
  match s with
  | SAssert c m l =>
      (* Assert.h:20-21 *)
      bind (check w) (fun w1 => if c then Go (w1, false) else bind (add_error m l w1) (fun w2 => Go (w2, true)))
  | SCall b => bind (exec_body b w) (fun x => Go (fst x, false))
  | STry b => match exec_body b w with Throws w' => Go (w', false) | x => x end
  | SRun n b =>
      (* Test.cpp:9-18: the result, the context, the function, print_brief *)
      let k := List.length (w_objs w) in
      match exec_body b (World (w_objs w ++ [TResult n 0 []]) (Some k) (w_out w)) with
      | Go (w1, _) => Go (leave (w_cur w) (put (print_brief_test (nth k (w_objs w1) (TResult n 0 []))) w1), false)
      | Throws w1 => Throws (leave (w_cur w) w1)
      | NullDeref => NullDeref
      end
  | SThrow => Throws w
  end.

Fixpoint exec_body (l : list stmt) (w : world) {struct l} : fin (world * bool) :=
  match l with
  | [] => Go (w, false)
  | s :: r => bind (exec_stmt s w) (fun x => if snd x then Go x else exec_body r (fst x))
  end.

(** Test.cpp:9-18 *)
Definition run_test (t : test) (w : world) : fin (world * tresult) :=
  let k := List.length (w_objs w) in
  let fresh := TResult (t_name t) 0 [] in
  match exec_body (t_func t) (World (w_objs w ++ [fresh]) (Some k) (w_out w)) with
  | Go (w1, _) =>
      let result := nth k (w_objs w1) fresh in
      Go (leave (w_cur w) (put (print_brief_test result) w1), result)
  | Throws w1 => Throws (leave (w_cur w) w1)
  | NullDeref => NullDeref
  end.

(** ** Fixtures and the runner *)

(** Fixture.h:15-40: the name is the key in the runner's map; [_tests] is an unordered map, kept
    here in the order of insertion; [iter] gives the order in which it is walked. *)
Definition fixture := list test.

(** Fixture.cpp:9-12: [emplace] does nothing if there is a test of the name. *)
Definition add_test (t : test) (f : fixture) : fixture :=
  if existsb (fun t' => String.eqb (t_name t') (t_name t)) f then f else f ++ [t].

(** Runner.h:25: an ordered map; string views are ordered by their characters as unsigned. *)
Definition runner := list (string * fixture).

(** Runner.cpp:17-21: [emplace] does nothing if there is a fixture of the name. *)
Fixpoint add_fixture (n : string) (r : runner) : runner :=
  match r with
  | [] => [(n, [])]
  | (m, f) :: rest =>
      match String.compare n m with
      | Lt => (n, []) :: r
      | Eq => r
      | Gt => (m, f) :: add_fixture n rest
      end
  end.

(** Runner.cpp:23-27: [at] throws (None) if there is no fixture of the name. *)
Fixpoint add_to_fixture (n : string) (t : test) (r : runner) : option runner :=
  match r with
  | [] => None
  | (m, f) :: rest =>
      if String.eqb m n then Some ((m, add_test t f) :: rest)
      else option_map (cons (m, f)) (add_to_fixture n t rest)
  end.

Definition find_fixture (n : string) (r : runner) : option fixture :=
  option_map snd (find (fun nf => String.eqb (fst nf) n) r).
Definition find_test (n : string) (f : fixture) : option test :=
  find (fun t => String.eqb (t_name t) n) f.

Section Order.
(** The order in which the unordered map of a fixture is walked *)
Variable iter : fixture -> list test.

(** The loop of Fixture.cpp:19-22 *)
Fixpoint run_tests (l : list test) (w : world) (acc : fresult) : fin (world * fresult) :=
  match l with
  | [] => Go (w, acc)
  | t :: r => bind (run_test t w) (fun x => run_tests r (fst x) (push_back acc (snd x)))
  end.

Definition running (n : string) : string := ("Running fixture " ++ quoted n ++ newline)%string.

(** Fixture.cpp:14-25 *)
Definition run_fixture (n : string) (f : fixture) (w : world) : fin (world * fresult) :=
  bind (run_tests (iter f) (put (running n) w) (FResult n [] []))
    (fun x => Go (put (print_brief_fixture (snd x)) (fst x), snd x)).

(** Fixture.cpp:27-42 *)
Definition run_fixture_test (n : string) (f : fixture) (t : string) (w : world) : fin (world * fresult) :=
  match find_test t f with
  | None => Go (put ("Error: Fixture " ++ quoted n ++ " does not contain test " ++ quoted t ++ newline)%string w, FResult n [] [])
  | Some t' =>
      bind (run_tests [t'] (put (running n) w) (FResult n [] []))
        (fun x => Go (put (print_brief_fixture (snd x)) (fst x), snd x))
  end.

(** Fixture.cpp:44-55 *)
Definition list_fixture (n : string) (f : fixture) : string :=
  String.concat "" (map (fun t => (quoted n ++ " - " ++ quoted (t_name t) ++ newline)%string) (iter f)).

(** The loop of Runner.cpp:63-71: the results with failures, and the number of failed tests *)
Fixpoint run_fixtures (l : runner) (w : world) (failures : list fresult) (total : nat) : fin (world * (list fresult * nat)) :=
  match l with
  | [] => Go (w, (failures, total))
  | (n, f) :: r =>
      bind (run_fixture n f w) (fun x =>
        run_fixtures r (fst x)
          (match fr_failures (snd x) with [] => failures | _ :: _ => failures ++ [snd x] end)
          (total + List.length (fr_failures (snd x))))
  end.

(** How the program ends: [Exit true] is EXIT_SUCCESS; an exception that leaves [main] ends it by
    [std::terminate]; a read of [args[1]] beyond the end of the vector is undefined. *)
Inductive ended := Exit (success : bool) | Terminated | Undefined.

(** What is written to the standard output, and the file that is written *)
Record finished := Finished { f_ended : ended; f_out : string; f_file : option (string * string) }.

Definition rule : string := ("================================" ++ newline ++ newline)%string.
Definition all_passed : string := (rule ++ "All tests passed." ++ newline)%string.
Definition some_failed (n : nat) : string := (rule ++ dec n ++ " tests failed." ++ newline ++ newline)%string.
Definition help : string :=
  ("`<no-args>` => Same as `run`" ++ newline ++
   "`list` => List all tests" ++ newline ++
   "`list` " ++ chr dquote ++ "<file>" ++ chr dquote ++ " => List all tests and output to the file" ++ newline ++
   "`run` => Run all tests" ++ newline ++
   "`run " ++ chr dquote ++ "<fixture>" ++ chr dquote ++ " => Run all tests in the given fixture" ++ newline ++
   "`run " ++ chr dquote ++ "<fixture>" ++ chr dquote ++ " " ++ chr dquote ++ "<test>" ++ chr dquote ++ " => Run the given test" ++ newline)%string.

Definition ends (x : fin (bool * world)) : finished :=
  match x with
  | Go (b, w) => Finished (Exit b) (w_out w) None
  | Throws w => Finished Terminated (w_out w) None
  | NullDeref => Finished Undefined "" None
  end.

(** When main starts: static objects only *)
Definition start_world : world := World [] None "".

(** Runner.cpp:59-90 *)
Definition run_all (r : runner) : finished :=
  ends (bind (run_fixtures r start_world [] 0) (fun x =>
    match fst (snd x) with
    | [] => Go (true, put all_passed (fst x))
    | failures => Go (false, put (some_failed (snd (snd x)) ++ String.concat "" (map print_errors_fixture failures))%string (fst x))
    end)).

(** Runner.cpp:106-120 *)
Definition report (x : fin (world * fresult)) : finished :=
  ends (bind x (fun x =>
    match fr_failures (snd x) with
    | [] => Go (true, put all_passed (fst x))
    | l => Go (false, put (some_failed (List.length l) ++ print_errors_fixture (snd x))%string (fst x))
    end)).

(** What [list] writes (Runner.cpp:144-147) *)
Definition listing (r : runner) : string :=
  String.concat "" (map (fun nf => list_fixture (fst nf) (snd nf)) r).

(** Runner.cpp:29-155.  [can_open]: whether the file can be opened for writing *)
Definition exec (can_open : string -> bool) (r : runner) (args : list string) : finished :=
  match args with
  | [] => Finished Undefined "" None
  | [_] => run_all r
  | _ :: cmd :: rest =>
      if String.eqb cmd "--help" then Finished (Exit true) help None
      else if String.eqb cmd "run" then
        match rest with
        | _ :: _ :: _ :: _ => Finished (Exit false) ("Error: Too many arguments to `run` command. Use --help for more info." ++ newline) None
        | [] => run_all r
        | n :: rest' =>
            match find_fixture n r with
            | None => Finished (Exit false) ("Error: Fixture " ++ quoted n ++ " does not exist." ++ newline) None
            | Some f =>
                match rest' with
                | [] => report (run_fixture n f start_world)
                | t :: _ => report (run_fixture_test n f t start_world)
                end
            end
        end
      else if String.eqb cmd "list" then
        match rest with
        | _ :: _ :: _ => Finished (Exit false) ("Error: Too many arguments to `list` command. Use --help for more info." ++ newline) None
        | [] => Finished (Exit true) (listing r) None
        | [file] =>
            if can_open file then Finished (Exit true) "" (Some (file, listing r))
            else Finished (Exit false) ("Error: Could not open file - " ++ file ++ newline) None
        end
      else Finished (Exit false) ("Error: Unrecognized argument. Use --help for more info." ++ newline) None
  end.
End Order.

(** ** Hashes of names (Hash.h) *)

Definition two64 : N := (2 ^ 64)%N.

(** A [char] added to a std::size_t; whether [char] is signed depends on the platform. *)
Definition char_value (signed : bool) (c : ascii) : N :=
  let n := N_of_ascii c in
  if signed && (128 <=? n)%N then (two64 - 256 + n)%N else n.

(** std::rotl(hash, 1) *)
Definition rotl1 (h : N) : N := ((2 * h) mod two64 + h / 2 ^ 63)%N.

(** Hash.h:9-17 *)
Fixpoint hash_from (signed : bool) (h : N) (s : string) : N :=
  match s with
  | EmptyString => h
  | String c r => hash_from signed ((rotl1 h + char_value signed c) mod two64)%N r
  end.
Definition hash (signed : bool) (s : string) : N := hash_from signed 0 s.

(** Hash.h:19-22 *)
Definition hash2 (signed : bool) (s1 s2 : string) : N := N.lxor (hash signed s1) (hash signed s2).

(** ** Declarations *)

(** FIXTURE(name); (Fixture.h:47-57) and TEST(fixture, name) { body } (Test.h:43-56) *)
Inductive decl :=
| DFixture (name : string)
| DTest (fixture name : string) (body : list stmt).

(** A program: the declarations of its translation units, in their order *)
Definition program := list (list decl).

Definition fixture_hashes (signed : bool) (l : list decl) : list N :=
  flat_map (fun d => match d with DFixture n => [hash signed n] | DTest _ _ _ => [] end) l.
Definition test_hashes (signed : bool) (l : list decl) : list N :=
  flat_map (fun d => match d with DFixture _ => [] | DTest f n _ => [hash2 signed f n] end) l.

(** The static assertions in a body (Assert.h:12, 19), executed or not *)
Fixpoint static_asserts (s : stmt) : bool :=
  match s with
  | SAssert c _ _ => c
  | SCall b | STry b | SRun _ b => forallb static_asserts b
  | SThrow => true
  end.

(** Test.h:48-50: at each TEST there is a specialisation of [FixtureImpl] for the hash of the
    name of its fixture, that is, an earlier FIXTURE of this translation unit has that hash.
    [static_on]: DISABLE_STATIC_ASSERT is not defined. *)
Fixpoint compiles (signed static_on : bool) (declared : list N) (l : list decl) : bool :=
  match l with
  | [] => true
  | DFixture n :: r => compiles signed static_on (hash signed n :: declared) r
  | DTest f n b :: r =>
      existsb (N.eqb (hash signed f)) declared && (negb static_on || forallb static_asserts b) &&
      compiles signed static_on declared r
  end.

Fixpoint no_repetition (l : list N) : bool :=
  match l with
  | [] => true
  | x :: r => negb (existsb (N.eqb x) r) && no_repetition r
  end.

(** Two FIXTUREs of one hash, and two TESTs of one hash, define the same specialisation and the
    same functions and static members twice: an error of the compiler in one translation unit,
    of the linker in two. *)
Definition builds (signed static_on : bool) (p : program) : bool :=
  forallb (compiles signed static_on []) p &&
  no_repetition (fixture_hashes signed (concat p)) && no_repetition (test_hashes signed (concat p)).

(** The static members [_self] and [_init] are initialised before main: those of one translation
    unit in order, those of several in any interleaving. *)
Inductive interleaving {A} : list (list A) -> list A -> Prop :=
| I_done p : Forall (eq []) p -> interleaving p []
| I_step p1 x r p2 l : interleaving (p1 ++ r :: p2) l -> interleaving (p1 ++ (x :: r) :: p2) (x :: l).

(** Initialisation of [_self] (Fixture.h:55-57) and [_init] (Test.h:54-55); None: an exception,
    and the program is terminated before main *)
Definition initialise (d : decl) (r : runner) : option runner :=
  match d with
  | DFixture n => Some (add_fixture n r)
  | DTest f n b => add_to_fixture f (Test n b) r
  end.
Fixpoint startup (l : list decl) (r : runner) : option runner :=
  match l with
  | [] => Some r
  | d :: l' => match initialise d r with Some r' => startup l' r' | None => None end
  end.

(** ** The list of tests for CTest (tests/discover_tests.cmake) *)

Definition is_break (c : ascii) : bool := Ascii.eqb c (ascii_of_nat 10) || Ascii.eqb c (ascii_of_nat 13).

(** The part of the regular expression after the first group: [ - ("[^\r\n]*")([\r\n]+)] on the
    rest of a line whose line break has been taken off, so that the second group has to end where
    the line ends; the result is the second group. *)
Fixpoint last_is_quote (s : string) : bool :=
  match s with
  | EmptyString => false
  | String c EmptyString => Ascii.eqb c dquote
  | String _ r => last_is_quote r
  end.
Definition second_group (s : string) : option string :=
  match s with
  | String c1 (String c2 (String c3 (String q g))) =>
      if String.eqb (String c1 (String c2 (String c3 EmptyString))) " - " && Ascii.eqb q dquote && last_is_quote g
      then Some (String q g) else None
  | _ => None
  end.

(** The first group, after its opening quote: as long as possible ([*] is greedy), and what follows matches *)
Fixpoint first_group (s : string) : option (string * string) :=
  match s with
  | EmptyString => None
  | String c r =>
      match first_group r with
      | Some (g1, g2) => Some (String c g1, g2)
      | None =>
          if Ascii.eqb c dquote then
            match second_group r with Some g2 => Some (chr c, g2) | None => None end
          else None
      end
  end.

(** The leftmost match in a line: what is before it, and the two groups *)
Fixpoint match_line (s : string) : option (string * string * string) :=
  match s with
  | EmptyString => None
  | String c r =>
      let here := if Ascii.eqb c dquote then
                    match first_group r with Some (g1, g2) => Some (EmptyString, String c g1, g2) | None => None end
                  else None in
      match here with
      | Some x => Some x
      | None => match match_line r with Some (pre, g1, g2) => Some (String c pre, g1, g2) | None => None end
      end
  end.

(** The lines of a text that are ended by a line feed *)
Fixpoint lines (s : string) (line : string) : list string :=
  match s with
  | EmptyString => []
  | String c r => if Ascii.eqb c (ascii_of_nat 10) then line :: lines r "" else lines r (line ++ chr c)%string
  end.

(** A quoted argument of a CMake command: the text without the escapes.  None: not a quoted
    argument, or one with a [$] or [@], which may be a reference to a variable, or with an escape
    other than those of a quote and a backslash (not modelled). *)
Fixpoint unescape (s : string) : option string :=
  match s with
  | EmptyString => None
  | String c EmptyString => if Ascii.eqb c dquote then Some EmptyString else None
  | String c (String d r as r') =>
      if Ascii.eqb c backslash then
        if Ascii.eqb d dquote || Ascii.eqb d backslash then option_map (String d) (unescape r) else None
      else if Ascii.eqb c dquote || Ascii.eqb c "$"%char || Ascii.eqb c "@"%char then None
      else option_map (String c) (unescape r')
  end.
Definition cmake_argument (s : string) : option string :=
  match s with
  | String q r => if Ascii.eqb q dquote then unescape r else None
  | EmptyString => None
  end.

(** The arguments [run], fixture, test of the command that a line becomes (discover_tests.cmake:12-16):
    the test is [add_test(... program "run" \1 \2)].  A line without a match is no command of
    this shape: None.  A line with a carriage return is not modelled: None. *)
Fixpoint has_break (s : string) : bool :=
  match s with EmptyString => false | String c r => is_break c || has_break r end.
Definition ctest_command (line : string) : option (list string) :=
  if has_break line then None else
  match match_line line with
  | Some (EmptyString, g1, g2) =>
      match cmake_argument g1, cmake_argument g2 with
      | Some f, Some t => Some ["run"; f; t]
      | _, _ => None
      end
  | _ => None
  end.

(** All of the generated file, line by line: a match has no line break in its two groups, and
    the breaks after it are put back ([\3]). *)
Definition ctest_commands (file : string) : list (option (list string)) := map ctest_command (lines file "").
