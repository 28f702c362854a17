#!/usr/bin/env python3
"""Compare the model of argparse (Argparse.v, Commands.v) with Python's own.

The two parsers are declared again here, with the names the model computes; random
command lines go through Python's argparse and, by vm_compute, through parse_args.
Usage: argparse_check.py SEED COUNT   (needs a built tree)
"""
import argparse, contextlib, fractions, io, os, random, re, subprocess, sys, tempfile

THEORIES = os.path.join(os.path.dirname(os.path.abspath(__file__)), "..", "rocq", "theories")


def coqc(text):
    with tempfile.TemporaryDirectory() as d:
        path = os.path.join(d, "q.v")
        open(path, "w").write(text)
        return subprocess.run(["coqc", "-Q", THEORIES, "Verif", path], stdout=subprocess.PIPE, text=True, check=True).stdout


HEAD = """From Coq Require Import List ZArith QArith String. From Verif Require Import Names Argparse Commands.
Import ListNotations. Local Open Scope string_scope. Local Open Scope list_scope.
"""


def names(what):
    return re.findall(r'"([^"]*)"', coqc(HEAD + f"Eval vm_compute in {what}."))


SPHERE, MAPS, MESHES, METHODS = (names(w) for w in ("sphere_names", "map_names", "MESHES", "mesh_method_names"))
FLOATS = {}


def to_float(s):
    x = float(s)
    if x != x or x in (float("inf"), float("-inf")):
        raise ValueError
    FLOATS[s] = fractions.Fraction(x)
    return x


def valid(l):
    def check(s):
        if s in l:
            return s
        raise ValueError
    return check


def sphere():
    p = argparse.ArgumentParser()
    p.add_argument("function", type=valid(SPHERE), choices=SPHERE)
    p.add_argument("--alpha", "-a", type=to_float, default=0.75)
    p.add_argument("--bandlimit", "-L", type=int, default=16)
    p.add_argument("--beta", "-b", type=to_float, default=0.125)
    p.add_argument("--convolve", "-c", type=valid(MAPS), default=None, choices=MAPS)
    p.add_argument("--extra_args", "-e", type=int, nargs="+")
    p.add_argument("--gamma", "-g", type=to_float, default=0)
    p.add_argument("--method", "-m", type=str, nargs="?", default="north", const="north", choices=["north", "rotate", "translate"])
    p.add_argument("--noise", "-n", type=int)
    p.add_argument("--outline", "-o", action="store_false")
    p.add_argument("--perspective", "-p", type=str, nargs="?", default="south_america", const="south_america", choices=["africa", "south_america"])
    p.add_argument("--region", "-r", action="store_true")
    p.add_argument("--smoothing", "-s", type=int)
    p.add_argument("--type", "-t", type=str, nargs="?", default="real", const="real", choices=["abs", "real", "imag", "sum"])
    p.add_argument("--unnormalise", "-u", action="store_true")
    p.add_argument("--unzeropad", "-z", action="store_true")
    p.add_argument("--version", "-v", action="version", version="0")
    return p


def mesh():
    p = argparse.ArgumentParser()
    p.add_argument("function", type=valid(MESHES), choices=MESHES)
    p.add_argument("--extra_args", "-e", type=int, nargs="+")
    p.add_argument("--method", "-m", type=valid(METHODS), nargs="?", default="basis_functions", const="basis_functions", choices=METHODS)
    p.add_argument("--noise", "-n", type=int)
    p.add_argument("--region", "-r", action="store_true")
    p.add_argument("--unnormalise", "-u", action="store_true")
    p.add_argument("--version", "-v", action="version", version="0")
    p.add_argument("--zoom", "-z", action="store_true")
    return p


def run(p, argv):
    try:
        with contextlib.redirect_stderr(io.StringIO()), contextlib.redirect_stdout(io.StringIO()):
            return vars(p.parse_args(argv))
    except SystemExit as e:
        return e.code


def q(x):
    f = fractions.Fraction(x)
    return f"(VFloat (({f.numerator}) # {f.denominator}))"


def val(k, v):
    if v is None: return "VNone"
    if v is True: return "(VBool true)"
    if v is False: return "(VBool false)"
    if k in ("alpha", "beta", "gamma"): return q(v)
    if isinstance(v, int): return f"(VInt ({v}))"
    if isinstance(v, str): return f'(VStr "{v}")'
    return "(VList [" + "; ".join(val("", x) for x in v) + "])"


def words(rng, is_mesh):
    longs = ["--extra_args", "--method", "--noise", "--region", "--unnormalise", "--version", "--help"]
    longs += ["--zoom"] if is_mesh else ["--alpha", "--bandlimit", "--beta", "--convolve", "--gamma", "--outline", "--perspective", "--smoothing", "--type", "--unzeropad"]
    shorts = "emnruvhz" + ("" if is_mesh else "aLbcgopst")
    good = MESHES + METHODS if is_mesh else SPHERE + MAPS + ["north", "rotate", "abs", "sum", "africa"]
    args = ["1", "0.5", "-3", "-.5", "-0.25", "1e-3", "-1e-3", " 7 ", "1_0", "+4", "", "-", "x y", "-x y", "_1", "1__0", "12", "007", "0x1", "- 1", "--"]

    def text():
        return rng.choice(good) if rng.random() < 0.45 else rng.choice(args)

    def word():
        r = rng.random()
        if r < 0.3: return [rng.choice(longs)]
        if r < 0.38:
            l = rng.choice(longs); return [l[: rng.randint(2, len(l))]]
        if r < 0.46: 
            l = rng.choice(longs); return [l[: rng.randint(3, len(l))] + "=" + text()]
        if r < 0.62: return ["-" + rng.choice(shorts)]
        if r < 0.7: return ["-" + rng.choice(shorts) + text()]
        if r < 0.76: return ["-" + "".join(rng.choice("ruzo" + shorts) for _ in range(rng.randint(2, 3))) + rng.choice(["", "", "=", "5", "=5", "-", "-1"])]
        if r < 0.78: return [rng.choice(["-q", "--nothing", "--", "-1", "---", "--=", "-=", "--=x", "-L", "-L=", "-rq", "-r=", "-ru="])]
        return [text()]
    return word


def sensible(rng, is_mesh):
    """A command line that is mostly right."""
    one = {"n": ["3", "-3", "10"]}
    if not is_mesh:
        one |= {"a": ["0.5", "-.5", "1"], "b": ["0.25", "1e-3"], "g": ["0", "2"], "L": ["8", "16", "-1"], "s": ["2"], "c": MAPS}
    long = {"n": "noise", "a": "alpha", "b": "beta", "g": "gamma", "L": "bandlimit", "s": "smoothing", "c": "convolve",
            "m": "method", "p": "perspective", "t": "type", "e": "extra_args", "r": "region", "u": "unnormalise", "z": "zoom" if is_mesh else "unzeropad", "o": "outline"}
    maybe = {"m": METHODS} if is_mesh else {"m": ["north", "rotate", "translate"], "p": ["africa", "south_america"], "t": ["abs", "real", "imag", "sum"]}
    flags = "ruz" if is_mesh else "ruzo"

    def name(k):
        r = rng.random()
        if r < 0.4: return "-" + k
        l = "--" + long[k]
        return l if r < 0.8 else l[: rng.randint(4, len(l))]

    def occurrence():
        r = rng.random()
        if r < 0.35:
            k = rng.choice(list(one)); v = rng.choice(one[k])
        elif r < 0.6:
            k = rng.choice(list(maybe)); v = rng.choice(maybe[k])
            if rng.random() < 0.4: return [name(k)]
        elif r < 0.75:
            return [name("e")] + [str(rng.randint(-9, 9)) for _ in range(rng.randint(1, 3))]
        elif r < 0.9:
            return [name(rng.choice(flags))]
        else:
            return ["-" + "".join(rng.choice(flags) for _ in range(rng.randint(2, 3))) + rng.choice(["", "n5", "n=5", "m", "e3"])]
        r = rng.random()
        if r < 0.6: return [name(k), v]
        if r < 0.8: return [name(k) + "=" + v]
        return ["-" + k + v]
    l = [occurrence() for _ in range(rng.randint(0, 5))]
    l.insert(rng.randint(0, len(l)), [rng.choice(MESHES if is_mesh else SPHERE)])
    return [w for o in l for w in o]


def main():
    seed, count = int(sys.argv[1]), int(sys.argv[2])
    rng = random.Random(seed)
    cases, codes = [], {}
    for i in range(count):
        is_mesh = rng.random() < 0.4
        if rng.random() < 0.5:
            argv = sensible(rng, is_mesh)
        else:
            word = words(rng, is_mesh)
            argv = [w for _ in range(rng.randint(0, 6)) for w in word()]
            if rng.random() < 0.8: argv.insert(rng.randint(0, len(argv)), rng.choice(MESHES if is_mesh else SPHERE))
        r = run(mesh() if is_mesh else sphere(), argv)
        codes[r if isinstance(r, int) else "ok"] = codes.get(r if isinstance(r, int) else "ok", 0) + 1
        want = f"(Exit {r})" if isinstance(r, int) else "(Got [" + "; ".join(f'("{k}", {val(k, v)})' for k, v in r.items()) + "])"
        got = f'(parse_args {"mesh_parser" if is_mesh else "(sphere_parser flt)"} [' + "; ".join(f'"{w}"' for w in argv) + "])"
        cases.append((argv, got, want))
    table = "".join(f'if String.eqb s "{s}" then Some (({f.numerator}) # {f.denominator}) else ' for s, f in FLOATS.items())
    text = HEAD + f"Definition flt (s : string) : option Q := {table} None.\n"
    text += "Fixpoint diff (n : nat) (l : list (out namespace * out namespace)) : list nat := match l with [] => [] | (a, b) :: l => (if same a b then [] else [n]) ++ diff (S n) l end.\n"
    same = """
Fixpoint veq (a b : value) : bool := match a, b with VNone, VNone => true | VBool x, VBool y => Bool.eqb x y | VInt x, VInt y => Z.eqb x y
 | VFloat x, VFloat y => Qeq_bool x y | VStr x, VStr y => String.eqb x y
 | VList x, VList y => (fix each x y := match x, y with [], [] => true | a :: x, b :: y => andb (veq a b) (each x y) | _, _ => false end) x y | _, _ => false end.
Fixpoint neq (a b : namespace) : bool := match a, b with [], [] => true | (d, v) :: a, (e, w) :: b => andb (andb (String.eqb d e) (veq v w)) (neq a b) | _, _ => false end.
Definition same (a b : out namespace) : bool := match a, b with Got x, Got y => neq x y | Exit x, Exit y => Z.eqb x y | _, _ => false end.
"""
    text = text.replace("Fixpoint diff", same + "Fixpoint diff")
    text += "Eval vm_compute in diff 0 [" + ";\n".join(f"({g}, {w})" for _, g, w in cases) + "].\n"
    out = coqc(text)
    bad = [int(x) for x in re.findall(r"\d+", out.split(":")[0])]
    print(codes, "differences:", len(bad))
    for b in bad[:10]:
        print(cases[b])
    return 1 if bad else 0


if __name__ == "__main__":
    sys.exit(main())
