(** The repository's own test programs (src/tests/*.ql), parsed, compiled and run in the
    model from their text, with the stack sizes of src/tests/mod.rs.  These are tests of the
    model, not proofs. *)
From Verif Require Import Base RleVec Pool Vecc Float NumText Bytecode Chunk Value Ast Arith VmOps
  Parse Builtins Compiler Vm ProofArithEx.

(** The host prints into a list. *)
Definition printed := list (list value).
Definition print_ : builtin printed := BFn (fun d args _ => (d ++ [args], Ok VNone)).
Definition std_bfn (x : rstring) : rstring * builtin printed :=
  (x, BFn (fun d args o =>
        (d, std_call Release no_oracle mfi (fun _ _ => Ok false) (o_array_max o) x args))).
Definition std_builtins : list (rstring * builtin printed) :=
  (str "print", print_) :: (str "println", print_) ::
  map (fun b => std_bfn (fst b)) (std_list (Fn := mfn) Release no_oracle mfi (fun _ _ => Ok false) 1000).
Definition test_host : host printed := mkHost (fun d => d) (fun d => d) (fun _ => 0%N) 10 no_oracle.

Definition test_code (fuel stack calls : nat) (text : rstring) : option printed :=
  match parse_code no_oracle 200 text 0 with
  | PMatch ast _ =>
      match compile Release ast with
      | COk sc =>
          match run Release test_host fuel
                  (add_builtins_list std_builtins
                     (vm_new [] sc (mkOptions 10 stack calls 1000000 1000000))) with
          | RDone _ s => Some (v_data s)
          | _ => None
          end
      | _ => None
      end
  | _ => None
  end.

(** src/tests/arith.ql *)
Definition arith_ql : rstring := str "// arithmetic tests

let x = 5
x = x + 1
x = x * 20 - (5 / 2) ** (2)
x / 2

@assert_eq(x, 116)".
Example arith_passes : test_code 2000 20 1 arith_ql = Some [].
Proof. vm_compute. reflexivity. Qed.

(** src/tests/conds.ql *)
Definition conds_ql : rstring := str "// conditional tests

let a = 1
let b = 20


let ans = if (a > b) {
    ""true""
} else {
    ""false""
}

@assert_eq(ans, ""false"")

let ans2 = 0
for i in 1:10 {
    if (i % 2 == 0) {
        ans2 = ans2 + i
    }
}

@assert_eq(ans2, 20)

let bruh = if 1 < 0 {
    ""bruh""
}

@assert_eq(bruh, none)

let bruh2 =  if 1 > 0 {

} else {
    ""bruh""
}

@assert_eq(bruh2, none)
".
Example conds_passes : test_code 5000 20 1 conds_ql = Some [].
Proof. vm_compute. reflexivity. Qed.

(** src/tests/closure.ql *)
Definition closure_ql : rstring := str "fn NewCounter() {
    let count = 0

    fn Increment() {
        count = count + 1
    }

    fn Decrement() {
        count = count - 1
    }

    fn Get() {
        count
    }

    return [Increment, Decrement, Get]
}

let incr, decr, get = NewCounter()


incr()
incr()
incr()

decr()

@assert_eq(get(), 2)

{
    {
        let incr, decr, get = NewCounter()

        decr()

        incr()
        incr()
        incr()
        incr()
        incr()

        @assert_eq(get(), 4)
    }
}


@assert_eq(get(), 2)

fn SOUP() {
    let a = 0

    let b = [
        fn() {
            a = a + 1
        },
        fn() {
            a = a - 1
        },
        fn() {
            a
        }
    ]
}

fn GOOP() {
    let a = 0

    let b = [
        fn() {
            a = a + 1
        },
        fn() {
            a = a - 1
        },
        fn() {
            a
        }
    ]

    return b
}

let a = SOUP()
let a, b, c = GOOP()".
Example closure_passes : test_code 5000 64 5 closure_ql = Some [].
Proof. vm_compute. reflexivity. Qed.

(** src/tests/loops.ql *)
Definition loops_ql : rstring := str "fn fizzbuzz(n) {
    for i in 0 : n + 1{
        let fizz = i % 3 == 0
        let buzz = i % 5 == 0

        if fizz && buzz {
            @println(""fizzbuzz"")
        } else if fizz {
            @println(""fizz"")
        } else if buzz {
            @println(""buzz"")
        } else {
            @println(i)
        }
    }
}


fizzbuzz(20)



let i = 0
let ans = 0
while (i = i + 1) < 20 {
    if i % 3 == 0 {
        ans = ans + i
    }
}

@print(ans)




for a, b, c in [[1, 2, 3], [4, 5, 6], [7, 8, 9]] {
    @print(a, b, c)
}


let r, g, b, a = @rgba(1, 2, 3, 4)

@assert_eq(r, 1)
@assert_eq(g, 2)
@assert_eq(b, 3)
@assert_eq(a, 4)


let r, g, b = @rgba(1, 2, 3, 4)

@assert_eq(r, 1)
@assert_eq(g, 2)
@assert_eq(b, 3)


let r, = @rgba(1, 2, 3, 4)

@assert_eq(r, 1)
".
Example loops_passes : option_map (@length _) (test_code 5000 20 2 loops_ql) = Some 25.
Proof. vm_compute. reflexivity. Qed.

(** src/tests/bitwise.ql *)
Definition bitwise_ql : rstring := str "// bitwise tests

let x = 5 & 1
x = 5 | 20
x = 5 ^ 1

// left shift
x = 1 << 3

// right shift
x = 8 >> 1

@assert_eq(x, 4)

let b = 0b001 | 0b010

@assert_eq(b, 0b011)

// bitwise not
let c = ~0b001

@assert_eq(c, -2)
@assert_eq(0x100, 256)
@assert_eq(0o100, 64)
".
Example bitwise_passes : test_code 2000 64 64 bitwise_ql = Some [].
Proof. vm_compute. reflexivity. Qed.

(** src/tests/recursion.ql *)
Definition recursion_ql : rstring := str "fn fib(n) {
    if n < 2 {
        n
    } else {
        fib(n - 1) + fib(n - 2)
    }
}

@assert_eq(fib(20), 6765)".
Example recursion_passes : test_code (N.to_nat 1000000) 64 64 recursion_ql = Some [].
Proof. vm_compute. reflexivity. Qed.
