#!/usr/bin/env python3
"""Transcribes the repository's table-driven interpreter tests into Coq examples.

Usage: conformance.py /repo OUT_DIR
Every case of `make_interpreter_test!` becomes one example that runs the model on the text of
the case.  The text is copied, not interpreted: the lexer is RustLexer.v.
"""
import os
import re
import sys

repo, out = sys.argv[1], sys.argv[2]
base = os.path.join(repo, 'src/interpreter/tests')

OPEN = {'(': ')', '[': ']', '{': '}'}


def split_top(text, offset):
    """Split at top-level commas; yields (offset, piece)."""
    depth, i, start, parts = 0, 0, 0, []
    n = len(text)
    while i < n:
        c = text[i]
        if text.startswith('//', i):
            j = text.find('\n', i)
            j = n if j < 0 else j
            i = j
            continue
        if text.startswith('r#"', i):
            i = text.index('"#', i + 3) + 2
            continue
        if c == '"':
            i += 1
            while text[i] != '"':
                i += 2 if text[i] == '\\' else 1
            i += 1
            continue
        if c in '([{':
            depth += 1
        elif c in ')]}':
            depth -= 1
        elif c == ',' and depth == 0:
            parts.append((offset + start, text[start:i]))
            start = i + 1
        i += 1
    parts.append((offset + start, text[start:]))
    return parts


def strip_comments(text):
    res = []
    i = 0
    while i < len(text):
        if text.startswith('r#"', i):
            j = text.index('"#', i + 3) + 2
            res.append(text[i:j]); i = j
        elif text[i] == '"':
            j = i + 1
            while text[j] != '"':
                j += 2 if text[j] == '\\' else 1
            res.append(text[i:j + 1]); i = j + 1
        elif text.startswith('//', i) and not text.startswith('///', i):
            j = text.find('\n', i)
            i = len(text) if j < 0 else j
        else:
            res.append(text[i]); i += 1
    return ''.join(res)


def coq(text):
    lines = [l.strip() for l in strip_comments(text).strip().split('\n')]
    return '"' + ' '.join(l for l in lines if l).replace('"', '""') + '"'


def braced(piece):
    s = strip_comments(piece).strip()
    assert s[0] == '{' and s[-1] == '}', s
    return s[1:-1]


def cases(path):
    src = open(path).read()
    at = src.index('make_interpreter_test!(') + len('make_interpreter_test!(')
    end = src.rindex(');')
    parts = split_top(src[at:end], at)
    name = strip_comments(parts[0][1]).strip()
    for off, piece in parts[1:]:
        text = strip_comments(piece).strip()
        if not text:
            continue
        lead = piece.index('(\n') if '(\n' in piece else piece.index('(')
        line = src.count('\n', 0, off + lead) + 1
        last = src.count('\n', 0, off + len(piece.rstrip())) + 1
        assert text[0] == '(' and text[-1] == ')'
        fields = [p for _, p in split_top(text[1:-1], 0)]
        case, spec, block, expected, err = [f.strip() for f in fields[:5]]
        assert all(not f.strip() for f in fields[5:])
        yield name, case, line, last, braced(spec), block, expected, err


def emit(files, out_file, title):
    lines = ['(** ' + title + '  Generated by tools/conformance.py. *)',
             'From Coq Require Import String.',
             'From Verif Require Import Base RustInstance.',
             'Open Scope list_scope.', '']
    count = 0
    for rel in files:
        path = os.path.join(base, rel)
        lines.append('(** ** src/interpreter/tests/%s *)' % rel)
        for name, case, first, last, spec, block, expected, err in cases(path):
            m = re.match(r'Some\(ErrorType::(\w+)\)', err)
            lines.append('(** %d-%d *)' % (first, last))
            lines.append('Example %s_%s :' % (name, case))
            run, block_ = 'run_case %s' % coq(spec), '    %s' % coq(block)
            if m:
                lines += ['  failure (' + run, block_ + ')', '  = Some "%s"%%string.' % m.group(1)]
            else:
                lines += ['  ' + run, block_, '  = statements %s.' % coq(expected)]
            lines.append('Proof. vm_compute. reflexivity. Qed.')
            count += 1
        lines.append('')
    with open(os.path.join(out, out_file), 'w') as f:
        f.write('\n'.join(lines).rstrip() + '\n')
    print(out_file, count)



def unescape(lit):
    """The value of a Rust string literal."""
    assert lit[0] == '"' and lit[-1] == '"'
    return re.sub(r'\\(.)', r'\1', lit[1:-1])


def quoted(text):
    return '"' + text.replace('"', '""') + '"'


def rstest_cases(src, test_name):
    """The arguments of the cases of a test."""
    end = src.index('fn %s' % test_name)
    start = src.rindex('#[rstest]', 0, end)
    i = start
    unnamed = 0
    while True:
        m = re.compile(r'#\[case(?:::(\w+))?\(').search(src, i, end)
        if not m:
            return
        # find the closing parenthesis
        depth, j = 1, m.end()
        while depth:
            if src[j] == '"':
                j += 1
                while src[j] != '"':
                    j += 2 if src[j] == '\\' else 1
            elif src.startswith("'{'", j) or re.match(r"'.'", src[j:j + 3]):
                j += 2
            elif src[j] in '([{':
                depth += 1
            elif src[j] in ')]}':
                depth -= 1
            j += 1
        args = [p.strip() for _, p in split_top(src[m.end():j - 1], 0)]
        unnamed += 1
        yield (m.group(1) or str(unnamed), src.count('\n', 0, m.start()) + 1, src.count('\n', 0, j) + 1,
               [a for a in args if a])
        i = j


def header(title, imports):
    return ['(** ' + title + '  Generated by tools/conformance.py. *)',
            'From Coq Require Import String.',
            'From Verif Require Import %s.' % imports,
            'Open Scope list_scope.', '']


def write(out_file, lines, count):
    with open(os.path.join(out, out_file), 'w') as f:
        f.write('\n'.join(lines).rstrip() + '\n')
    print(out_file, count)


def emit_values(out_file):
    src = open(os.path.join(repo, 'src/parse/value.rs')).read()
    lines = header("The repository's tests of value parsing, on the model.", 'Base Types RustInstance')
    count = 0
    lines.append('(** ** src/parse/value.rs *)')
    for name, first, last, (inp, value, ty, rest) in rstest_cases(src, 'terminated_value_parsing'):
        lines += ['(** %d-%d *)' % (first, last), 'Example value_%s :' % name,
                  '  parsed_value %s' % quoted(unescape(inp)),
                  '  = value_of Ty%s %s %s.' % (ty.replace('Type::', ''), quoted(unescape(value)), quoted(unescape(rest))),
                  'Proof. vm_compute. reflexivity. Qed.']
        count += 1
    write(out_file, lines, count)


def substitution(text):
    m = re.match(r'make_substitutions!\(\s*"(\w+)" => Value::from_ident\(Ident::new\("(\w+)", Span::call_site\(\)\)\),\s*\)$', text)
    if m:
        return '[("%s", VIdent (txt "%s"))]%%string' % m.groups()
    m = re.match(r'make_substitutions!\(\s*"(\w+)" => Value::from_type\(syn::parse_str::<syn::Type>\("([^"]*)"\)\.unwrap\(\)\),\s*\)$', text)
    assert m, text
    return '[("%s", VType (lex "%s"))]%%string' % m.groups()


def block_text(text):
    s = text.strip()
    assert s.startswith('parse_quote!{') and s.endswith('}')
    return s[len('parse_quote!{'):-1]


def emit_substitutions(out_file):
    lines = header("The repository's tests of substitution, on the model.",
                   'Base Token Values RustLexer RustInstance')
    count = 0
    for rel, tests, run in [('alias_substitution_visitor.rs', ['basic_substitution', 'ast_recursive_substitution'], 'visited'),
                            ('substitute_idents.rs', ['substitution'], 'substituted')]:
        src = open(os.path.join(repo, 'src/substitution', rel)).read()
        lines.append('(** ** src/substitution/%s *)' % rel)
        for test in tests:
            for name, first, last, (inp, expected, subst) in rstest_cases(src, test + '('):
                lines += ['(** %d-%d *)' % (first, last), 'Example %s_%s_%s :' % (rel[:-3], test, name),
                          '  %s %s' % (run, substitution(subst)), '    %s' % coq(block_text(inp)),
                          '  = statements %s.' % coq(block_text(expected)),
                          'Proof. vm_compute. reflexivity. Qed.']
                count += 1
    write(out_file, lines, count)


def emit_texts(out_file):
    src = open(os.path.join(repo, 'src/funcs.rs')).read()
    lines = header("The repository's tests of the functions on texts, on the model.",
                   'Base Token Values Ast Env RustInstance')
    count = 0
    lines.append('(** ** src/funcs.rs *)')
    for name, first, last, (inp, expected) in rstest_cases(src, 'test_normalize'):
        lines += ['(** %d *)' % first, 'Example normalize_%s : fn_normalize rust (txt %s) = txt %s.' % (name, quoted(unescape(inp)), quoted(unescape(expected))),
                  'Proof. vm_compute. reflexivity. Qed.']
        count += 1
    for name, first, last, (inp, expected) in rstest_cases(src, 'test_concat'):
        parts = [p.strip() for _, p in split_top(inp[2:-1], 0) if p.strip()]
        lines += ['(** %d *)' % first, 'Example concat_%s : fn_concat (map txt [%s]%%string) = txt %s.'
                  % (name, '; '.join(quoted(unescape(p)) for p in parts), quoted(unescape(expected))),
                  'Proof. vm_compute. reflexivity. Qed.']
        count += 1
    write(out_file, lines, count)


top = ['aliases.rs', 'calls.rs', 'loops.rs', 'non_terminals.rs', 'string_formatting.rs', 'types.rs']
funcs = sorted('funcs/' + f for f in os.listdir(os.path.join(base, 'funcs')) if f != 'mod.rs')
emit(top, 'ConformanceInterpreter.v', "The repository's interpreter tests, on the model.")
emit(funcs, 'ConformanceFuncs.v', "The repository's tests of the functions, on the model.")
emit_values('ConformanceValues.v')
emit_substitutions('ConformanceSubstitutions.v')
emit_texts('ConformanceTexts.v')
