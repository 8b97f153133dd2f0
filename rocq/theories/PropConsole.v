(** Programs that read, print, draw random numbers and look at the clock (C01, C03, C68 with
    the whole library; C69-C74).  The world outside is [world] of Console.v: what was written,
    the lines to be read, the files, the clock, the random numbers and the hash function. *)
From Verif Require Import Base RleVec Pool Float NumText Bytecode Chunk Value Ast Arith VmOps Args Parse Builtins
  Compiler Vm Std Console CodeSize SpecArith SpecParse SpecReady SpecRel SpecVm SpecEval SpecStd SpecHeld
  ProofArithEx ExProg ProofVmEx ProofParse ProofReady3 ProofSim13 ProofParse5 ProofText ProofConsole ProofConsole2
  ProofConsole3 ProofConsole4 ProofConsole5 ProofConsoleEx SpecConsole SpecText.

(** ** C01, C03, C68  The earlier properties hold with everything the command line offers. *)

(** What is printed and read is in the data the two sides agree on. *)
Theorem C01_stdio_partial : forall m (hst : host world) orc parse_fuel text id ast i sc feq fhash d o fuel,
  let s := add_builtins_list (stdio m (h_oracle hst) feq fhash) (vm_new d sc o) in
  parse_code orc parse_fuel text id = PMatch ast i -> compile m ast = COk sc ->
  weights ast <= N.to_nat 65535 -> placed_program ast ->
  length (p_entries (v_gsyms s)) <= N.to_nat 65536 ->
  stopped_by_limit m hst s \/
  agrees m hst fuel (eval m (h_oracle hst) (v_opts s) (h_enter hst) (h_leave hst)
                       (stdio_known m (h_oracle hst)) fuel ast (mkSst [] [] d)) s.
Proof.
  exact (fun m hst orc pf text id ast i sc feq fhash d o fuel Hp Hc Hw Hpl Hr =>
    whole_program m hst ast sc _ _ _ fuel Hc Hw Hpl (parse_code_named orc pf text id ast i Hp)
      (io_starts m hst feq fhash d sc o) Hr).
Qed.
Print Assumptions C01_stdio_partial.

Example C01_stdio_example :
  (exists i, parse_code talk_oracle 100 talk_text 0 = PMatch talk_ast i) /\
  compile Release talk_ast = COk (script_of talk_ast) /\
  weights talk_ast <= N.to_nat 65535 /\ placed_program talk_ast /\
  length (p_entries (v_gsyms talk_vm)) <= N.to_nat 65536 /\
  talk_eval 30 = Some (talk_value, str "$ name? hi Ada [1, #ff0000ff] " ++ [10%N]) /\
  match run Release talk_host 500 talk_vm with
  | RDone v s => v = talk_value /\ w_out (v_data s) = str "$ name? hi Ada [1, #ff0000ff] " ++ [10%N] /\ w_in (v_data s) = []
  | _ => False
  end.
Proof.
  split; [exact talk_parses|]. split; [exact talk_compiles|]. split; [exact talk_weight|].
  split; [exact talk_placed|]. split; [exact talk_room|]. split; [exact talk_evals|exact talk_runs].
Qed.

Theorem C03_stdio_partial : forall m (hst : host world) orc parse_fuel text id ast i sc feq fhash d o s,
  parse_code orc parse_fuel text id = PMatch ast i -> weights ast <= N.to_nat 65535 -> compile m ast = COk sc ->
  reach m hst (add_builtins_list (stdio m (h_oracle hst) feq fhash) (vm_new d sc o)) s -> ready s.
Proof.
  exact (fun m hst orc pf text id ast i sc feq fhash d o s Hp Hw Hc =>
    main_ready m hst ast sc _ s Hc Hw (parse_code_complete orc pf text id ast i Hp)
      (io_prepared m hst feq fhash d sc o)).
Qed.
Print Assumptions C03_stdio_partial.

Example C03_stdio_example :
  reach Release talk_host talk_vm talk_mid /\ length (v_frames talk_mid) = 1.
Proof. split; [exact talk_mid_reach|exact (proj1 talk_mid_is)]. Qed.

Theorem C68_stdio : forall m orc feq fhash,
  Forall (fun nb => proper_builtin (snd nb)) (stdio m orc feq fhash).
Proof. exact stdio_proper. Qed.
Print Assumptions C68_stdio.

(** ** C69  How values are written as text.  [written] is in SpecText.v. *)
Theorem C69_str : forall o m feq amax (v : value) t, value_wf v ->
  (std_call m o mfi feq amax (str "str") [v] = Ok (VString t) <-> written (o_f64_text o) v t).
Proof. exact str_shown. Qed.
Print Assumptions C69_str.

Theorem C69_unique : forall o (v : value) t u,
  written (o_f64_text o) v t -> written (o_f64_text o) v u -> t = u.
Proof. exact written_unique. Qed.
Print Assumptions C69_unique.

Example C69_example :
  std_call Release no_oracle mfi (fun _ _ => Panic) 1000 (str "str")
    [VArray [VPair (VInt (-120)) (VBool true); VColor 255 10 0 128; VRange 0 7; VNone; VString (str "a b")] 0 0] =
  Ok (VString (str "[(-120, true), #ff0a0080, 0:7, none, a b]")).
Proof. vm_compute. reflexivity. Qed.

(** ** C70  Printing *)

(** Each argument is written, each followed by one space; nothing else happens. *)
Theorem C70_print : forall o fhash args ts w,
  Forall value_wf args -> Forall2 (written (o_f64_text o)) args ts ->
  exists w', console_call o mfi fhash (str "print") args w = (w', Ok VNone) /\ same_but_output w w' /\
             w_out w' = w_out w ++ with_spaces ts.
Proof. exact print_writes. Qed.
Print Assumptions C70_print.

(** ... followed by the end of the line. *)
Theorem C70_println : forall o fhash args ts w,
  Forall value_wf args -> Forall2 (written (o_f64_text o)) args ts ->
  exists w', console_call o mfi fhash (str "println") args w = (w', Ok VNone) /\ same_but_output w w' /\
             w_out w' = w_out w ++ with_spaces ts ++ [10%N].
Proof. exact println_writes. Qed.
Print Assumptions C70_println.

(** ... between escape sequences that set and reset the colour (27 is the escape character). *)
Theorem C70_debug : forall o fhash args ts w,
  Forall value_wf args -> Forall2 (written (o_f64_text o)) args ts ->
  exists w', console_call o mfi fhash (str "debug") args w = (w', Ok VNone) /\ same_but_output w w' /\
    w_out w' = w_out w ++ [27%N] ++ str "[38;5;208mDEBUG: " ++ with_spaces ts ++ [27%N] ++ str "[0m" ++ [10%N].
Proof. exact debug_writes. Qed.
Print Assumptions C70_debug.

(** No other function writes ... *)
Theorem C70_quiet : forall o fhash name args w,
  ~ In name [str "print"; str "println"; str "debug"; str "input"] ->
  w_out (fst (console_call o mfi fhash name args w)) = w_out w.
Proof. exact others_quiet. Qed.
Print Assumptions C70_quiet.

(** ... and whatever the program does, and however it ends, what was written stays written,
    no line is read twice or skipped, and no file changes. *)
Theorem C70_kept : forall m (hst : host world),
  (forall w, after w (h_enter hst w)) -> (forall w, after w (h_leave hst w)) ->
  forall d orc feq fhash sc o s,
  reach m hst (add_builtins_list (stdio m orc feq fhash) (vm_new d sc o)) s ->
  after d (v_data s) /\
  match step m hst s with
  | SNext s' | SDone _ s' | SErr _ _ s' => after d (v_data s')
  | SPanic => True
  end.
Proof. exact output_kept. Qed.
Print Assumptions C70_kept.

Example C70_example :
  reach Release talk_host talk_vm talk_mid /\ (forall w, after w (h_enter talk_host w)) /\
  (forall w, after w (h_leave talk_host w)) /\
  w_out talk_world = str "$ " /\ w_in talk_world = [Some (str " Ada "); Some (str "x")] /\
  w_out (v_data talk_mid) = str "$ name? hi Ada [1, #ff0000ff] " ++ [10%N] /\ w_in (v_data talk_mid) = [Some (str "x")].
Proof.
  split; [exact talk_mid_reach|]. split; [exact after_refl|]. split; [exact after_refl|].
  split; [reflexivity|]. split; [reflexivity|exact (proj2 talk_mid_is)].
Qed.
Example C70_print_example : forall o fhash w,
  snd (console_call o mfi fhash (str "println") [VInt 1; VString (str "a")] w) = Ok VNone /\
  w_out (fst (console_call o mfi fhash (str "println") [VInt 1; VString (str "a")] w)) = w_out w ++ str "1 a " ++ [10%N].
Proof. intros. split; reflexivity. Qed.

(** ** C71  Reading *)

(** The prompt is written and the next line is taken, without the white space around it.  At
    the end of the input there is an empty line for ever. *)
Theorem C71_input : forall o fhash prompt w,
  let (w', r) := console_call o mfi fhash (str "input") [VString prompt] w in
  w_out w' = w_out w ++ prompt /\
  match w_in w with
  | [] => w_in w' = [] /\ r = Ok (VString [])
  | Some l :: rest => w_in w' = rest /\ exists t, r = Ok (VString t) /\ trimmed (o_whitespace o) l t
  | None :: rest => w_in w' = rest /\ r = Err (EBuiltin (str "could not read input"))
  end.
Proof. exact input_reads. Qed.
Print Assumptions C71_input.

Theorem C71_readfile : forall o fhash path w,
  console_call o mfi fhash (str "readfile") [VString path] w =
  (w, match w_file w path with
      | inl text => Ok (VString text)
      | inr e => Err (EBuiltin (str "could not read file: " ++ e))
      end).
Proof. exact readfile_reads. Qed.
Print Assumptions C71_readfile.

Example C71_example : forall fhash,
  snd (console_call talk_oracle mfi fhash (str "input") [VString (str "? ")] talk_world) = Ok (VString (str "Ada")).
Proof. reflexivity. Qed.
(** An empty line and the end of the input look the same. *)
Theorem C71_end_of_input_refuted : forall o fhash,
  exists w1 w2, w_in w1 = [] /\ w_in w2 = [Some []] /\
    snd (console_call o mfi fhash (str "input") [VString []] w1) =
    snd (console_call o mfi fhash (str "input") [VString []] w2).
Proof. intros. exists (put_in [] new_world), (put_in [Some []] new_world). repeat split. Qed.
Print Assumptions C71_end_of_input_refuted.

(** ** C72  @date.  [calendar] and [clock_time] are in SpecConsole.v. *)

(** The time of day is right ... *)
Theorem C72_time_partial : forall o fhash secs nanos w, w_clock w (w_reads w) = Some (secs, nanos) ->
  exists day th tm ts h m s,
    snd (console_call o mfi fhash (str "date") [] w) =
      Ok (VString (day ++ str " " ++ th ++ str ":" ++ tm ++ str ":" ++ ts)) /\
    clock_time (secs mod 86400) h m s /\ decimal (Z.of_N h) th /\ decimal (Z.of_N m) tm /\ decimal (Z.of_N s) ts.
Proof. exact date_time. Qed.
Print Assumptions C72_time_partial.

(** ... the date is not. *)
Theorem C72_date_refuted : forall o fhash,
  exists t, snd (console_call o mfi fhash (str "date") [] new_world) = Ok (VString t) /\
    w_clock new_world (w_reads new_world) = Some (0%N, 0%N) /\
    forall y m d ty tm td rest, calendar 0 y m d ->
      decimal (Z.of_N y) ty -> decimal (Z.of_N m) tm -> decimal (Z.of_N d) td ->
      t <> ty ++ str "-" ++ tm ++ str "-" ++ td ++ rest.
Proof. exact date_wrong. Qed.
Print Assumptions C72_date_refuted.

Example C72_example : forall o fhash,
  snd (console_call o mfi fhash (str "date") [] talk_world) = Ok (VString (str "1970-0-0 23:59:59")).
Proof. intros. vm_compute. reflexivity. Qed.
Example C72_calendar_example : calendar 0 1970 1 1 /\ calendar 789 1972 2 29.
Proof.
  split; [exists 0|exists 2]; (split; [reflexivity|]); (split; [lia|]); (split; [vm_compute; split; discriminate|vm_compute; reflexivity]).
Qed.

(** ** C73  Random numbers *)

(** Every number of the range, and no other, can come out. *)
Theorem C73_randint : forall o fhash a b w,
  match snd (console_call o mfi fhash (str "randint") [VInt a; VInt b] w) with
  | Ok v => exists n, v = VInt n /\ (a <= n < b)%Z
  | Err e => (b <= a)%Z /\ e = EBuiltin (str "start must be less than end")
  | Panic => False
  end.
Proof. exact randint_gives. Qed.
Print Assumptions C73_randint.

Theorem C73_randint_any : forall o fhash a b n w, (a <= n < b)%Z ->
  exists w', w_out w' = w_out w /\ snd (console_call o mfi fhash (str "randint") [VInt a; VInt b] w') = Ok (VInt n).
Proof. intros. eexists. split; [|apply randint_any; assumption]. reflexivity. Qed.
Print Assumptions C73_randint_any.

Theorem C73_randchoice : forall o fhash l size mx w,
  match snd (console_call o mfi fhash (str "randchoice") [VArray l size mx] w) with
  | Ok v => In v l
  | Err e => l = [] /\ e = EBuiltin (str "list must not be empty")
  | Panic => False
  end.
Proof. exact randchoice_gives. Qed.
Print Assumptions C73_randchoice.

Theorem C73_randchoice_any : forall o fhash l size mx v w, In v l ->
  exists w', w_out w' = w_out w /\ snd (console_call o mfi fhash (str "randchoice") [VArray l size mx] w') = Ok v.
Proof.
  intros o fhash l size mx v w H. apply In_nth_error in H as (i & H). eexists.
  split; [|eapply randchoice_any; exact H]. reflexivity.
Qed.
Print Assumptions C73_randchoice_any.

Theorem C73_random : forall o fhash w,
  exists x, snd (console_call o mfi fhash (str "random") [] w) = Ok (VFloat x) /\ fleb fzero x = true /\ fltb x f1 = true.
Proof. exact random_gives. Qed.
Print Assumptions C73_random.

Theorem C73_randfloat_partial : forall o fhash a b w,
  fltb a b = true -> f_finite (fsub b a) = true ->
  exists x, snd (console_call o mfi fhash (str "randfloat") [VFloat a; VFloat b] w) = Ok (VFloat x) /\
    fleb a x = true /\ fltb x b = true.
Proof. exact randfloat_gives. Qed.
Print Assumptions C73_randfloat_partial.

(** An end that is not a number aborts the process; so does a range that is too wide. *)
Theorem C73_randfloat_refuted : forall o fhash w,
  snd (console_call o mfi fhash (str "randfloat") [VFloat S754_nan; VFloat f1] w) = Panic /\
  snd (console_call o mfi fhash (str "randfloat")
         [VFloat (S754_finite true 9007199254740991 971); VFloat (S754_finite false 9007199254740991 971)] w) = Panic.
Proof. intros. split; reflexivity. Qed.
Print Assumptions C73_randfloat_refuted.

Theorem C73_colors : forall o fhash w,
  (exists r g b, snd (console_call o mfi fhash (str "random_color") [] w) = Ok (VColor r g b 255) /\
     (r < 256)%N /\ (g < 256)%N /\ (b < 256)%N) /\
  (exists r g b, snd (console_call o mfi fhash (str "random_pastel_color") [] w) = Ok (VColor r g b 255) /\
     (127 <= r <= 255)%N /\ (127 <= g <= 255)%N /\ (127 <= b <= 255)%N).
Proof. exact (fun o fhash w => conj (random_color_gives o fhash w) (random_pastel_gives o fhash w)). Qed.
Print Assumptions C73_colors.

Theorem C73_color_any : forall o fhash r g b w, (r < 256)%N -> (g < 256)%N -> (b < 256)%N ->
  exists w', w_out w' = w_out w /\ snd (console_call o mfi fhash (str "random_color") [] w') = Ok (VColor r g b 255).
Proof. intros. eexists. split; [|apply random_color_any; assumption]. reflexivity. Qed.
Print Assumptions C73_color_any.

Theorem C73_rainbow : forall o fhash m feq amax w l size mx,
  std_call m o mfi feq amax (str "rainbow_colors") [] = Ok (VArray l size mx) ->
  exists v, snd (console_call o mfi fhash (str "random_rainbow_color") [] w) = Ok v /\ In v l.
Proof. exact rainbow_gives. Qed.
Print Assumptions C73_rainbow.

Example C73_example : forall o fhash,
  snd (console_call o mfi fhash (str "randint") [VInt 10; VInt 15] talk_world) = Ok (VInt 12) /\
  snd (console_call o mfi fhash (str "randfloat") [VFloat f1; VFloat f255] talk_world) = Ok (VFloat f1) /\
  fltb f1 f255 = true /\ f_finite (fsub f255 f1) = true /\
  (exists l size mx, std_call Release o mfi (fun _ _ => Panic) 1000 (str "rainbow_colors") [] = Ok (VArray l size mx)).
Proof. intros. repeat split; try (vm_compute; reflexivity). do 3 eexists. vm_compute. reflexivity. Qed.

(** ** C74  @hash *)
Theorem C74_range : forall o fhash v w r,
  snd (console_call o mfi fhash (str "hash") [v] w) = Ok r -> exists n, r = VInt n /\ (0 <= n < 2 ^ 31)%Z.
Proof. exact hash_range. Qed.
Print Assumptions C74_range.

Theorem C74_given : forall o fhash v w, plainly_hashed v ->
  exists n, snd (console_call o mfi fhash (str "hash") [v] w) = Ok (VInt n).
Proof. exact hash_given. Qed.
Print Assumptions C74_given.

Theorem C74_refused : forall o fhash v w,
  match v with
  | VSpecial _ _ | VArray _ _ _ | VLoopCtx _ | VFn _ =>
      snd (console_call o mfi fhash (str "hash") [v] w) = Err (ECannotHash (ntype mfi v))
  | _ => True
  end.
Proof. exact hash_refuses. Qed.
Print Assumptions C74_refused.

(** What [==] calls equal has the same hash ... *)
Theorem C74_equal_partial : forall o fhash feq a b w, plainly_hashed a -> v_equal feq a b = Ok (VBool true) ->
  console_call o mfi fhash (str "hash") [a] w = console_call o mfi fhash (str "hash") [b] w.
Proof. exact hash_equal. Qed.
Print Assumptions C74_equal_partial.

(** ... but for zero and minus zero, and for arrays in pairs made under different limits. *)
Theorem C74_equal_refuted : forall o fhash feq, exists w,
  let zero := VFloat (S754_zero false) in
  let minus_zero := VFloat (S754_zero true) in
  let one_limit := VPair (VArray [] 0 1) VNone in
  let other_limit := VPair (VArray [] 0 2) VNone in
  v_equal feq zero minus_zero = Ok (VBool true) /\
  console_call o mfi fhash (str "hash") [zero] w <> console_call o mfi fhash (str "hash") [minus_zero] w /\
  v_equal feq one_limit other_limit = Ok (VBool true) /\
  console_call o mfi fhash (str "hash") [one_limit] w <> console_call o mfi fhash (str "hash") [other_limit] w.
Proof.
  intros. exists new_world. cbv zeta. split; [reflexivity|]. split; [vm_compute; discriminate|].
  split; [reflexivity|]. vm_compute. discriminate.
Qed.
Print Assumptions C74_equal_refuted.

Example C74_example : forall o fhash, plainly_hashed (Fn := mfn) (VPair (VString (str "a")) (VFloat f1)) /\
  snd (console_call o mfi fhash (str "hash") [VPair (VString (str "a")) (VFloat f1)] talk_world) = Ok (VInt 42).
Proof. intros. split; [repeat constructor|reflexivity]. Qed.
