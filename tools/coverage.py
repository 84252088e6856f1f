"""Which functions of /repo/src are cited by a definition of the model (rocq/theories/M_*.v)."""
import re, glob, os
R = "/repo/"
cites = {}
for f in glob.glob(os.path.join(os.path.dirname(__file__), "../rocq/theories/*.v")):
    for c in re.findall(r"\(\*\*.*?\*\)", open(f).read(), re.S):
        for m in re.finditer(r"(src/[\w/]+\.rs)((?::|, |,| and )?\d+(?:-\d+)?(?:(?:, ?| and |; )\d+(?:-\d+)?)*)", c):
            for a, b in re.findall(r"(\d+)(?:-(\d+))?", m.group(2)):
                cites.setdefault(m.group(1), []).append((int(a), int(b or a), os.path.basename(f)))
for f in sorted(glob.glob(R + "src/**/*.rs", recursive=True)):
    rel = f[len(R):]
    if rel.endswith(("test.rs", "tests.rs")): continue
    lines = open(f).read().split("\n"); ok = []; no = []
    cut = next((i for i, l in enumerate(lines) if re.match(r"\s*#\[test\]", l)), len(lines))
    for i, l in enumerate(lines[:cut], 1):
        m = re.match(r"\s*(?:pub(?:\([a-z]+\))? )?(?:const )?(?:unsafe )?fn (\w+)", l)
        if m:
            (ok if any(a <= i <= b for a, b, _ in cites.get(rel, [])) else no).append(f"{m.group(1)}:{i}")
    print(rel, "covered", len(ok), "uncovered", no)
