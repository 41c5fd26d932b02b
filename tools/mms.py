#!/usr/bin/env python3
"""Transcribes the manufactured-solution expressions of /repo/src/user_functions into
rocq/theories/MMS_Model.v (run once; the output is committed)."""
import re, os
U = '/repo/src/user_functions/'
OUT = os.path.join(os.path.dirname(os.path.abspath(__file__)), '..', 'rocq', 'theories', 'MMS_Model.v')
FIELDS = ['unot_','vnot_','wnot_','pnot_','znot_','hnot_','a_','amf_','ah_','k_','visc_','rhoP_','rhoS_','Sc_','Pr_',
          'Pref_','MW_','R_','Tref_','Cp_','pi_','twoThirds_','rhoRef_','gx_','gy_','gz_','uNot_','vNot_','pNot_','rhoNot_','L_','Re_','kx_','ky_']
def src(f): return re.sub(r'/\*.*?\*/', lambda m: '\n' * m.group(0).count('\n'), open(U+f).read(), flags=re.S)
def find(f, lhs, nth=0):
    """(expression text, line number) of the nth 'lhs = expr;' in file f"""
    s = src(f)
    ms = [m for m in re.finditer(r'(?<![\w\]])' + re.escape(lhs) + r'\s*\+?=\s*([^;]*);', s)]
    m = ms[nth]
    return m.group(1), s.count('\n', 0, m.start()) + 1
class P:
    """translate a C arithmetic expression"""
    def __init__(self, e, ren=None):
        e = e.replace('stk::math::', '').replace('std::', '').replace('v_scv_volume(ip)', '1').replace('ws_scv_volume_[ip]', '1')
        self.t = re.findall(r'\d+\.?\d*(?:e[+-]?\d+)?|[A-Za-z_]\w*(?:\[\d\])?|[-+*/(),]', e)
        self.i = 0; self.ren = ren or {}
    def peek(self): return self.t[self.i] if self.i < len(self.t) else None
    def get(self): self.i += 1; return self.t[self.i-1]
    def expr(self):
        r = self.term()
        while self.peek() in ('+', '-'):
            op = self.get(); r = '%s %s %s' % (r, op, self.term())
        return r
    def term(self):
        r = self.unary()
        while self.peek() in ('*', '/'):
            op = self.get(); r = '%s %s %s' % (r, op, self.unary())
        return r
    def unary(self):
        if self.peek() == '-': self.get(); return '(- %s)' % self.unary()
        if self.peek() == '+': self.get(); return self.unary()
        return self.atom()
    def num(self, s):
        from fractions import Fraction
        v = Fraction(s)
        return str(v.numerator) if v.denominator == 1 else '(%d / %d)' % (v.numerator, v.denominator)
    def atom(self):
        k = self.get()
        if k == '(':
            r = self.expr(); assert self.get() == ')'; return '(%s)' % r
        if re.match(r'\d', k): return self.num(k)
        if k in ('cos', 'sin', 'exp', 'sqrt'):
            assert self.get() == '('; r = self.expr(); assert self.get() == ')'; return '%s (%s)' % (k, r) if False else '(%s (%s))' % (k, r)
        if k == 'pow':
            assert self.get() == '('; a = self.expr(); assert self.get() == ','; b = self.expr(); assert self.get() == ')'
            if b == '(- 2)': return '(inv2 (%s))' % a
            if b == '2': return '((%s) ^ 2)' % a
            raise Exception(b)
        if k in self.ren: return self.ren[k]
        if k == 'M_PI': return 'PI'
        if k in FIELDS: return '(%s q)' % k
        if k in ('x', 'y', 'z', 't', 'mu', 'lambda', 'omega', 'pi', 'fac', 'h', 'temp'): return {'lambda': 'lam'}.get(k, k)
        raise Exception('unknown ' + k)
def tr(e, ren=None):
    p = P(e, ren); r = p.expr(); assert p.i == len(p.t), (p.t[p.i:], e); return r
out = []
w = out.append
def wrap(s, n=170):
    r, line = [], ''
    for tok in s.split(' '):
        if len(line) + len(tok) > n: r.append(line); line = '   '
        line += (' ' if line.strip() else '') + tok
    r.append(line); return '\n'.join(r)
def scalar(name, f, lhs, pre='', nth=0, ren=None, note=''):
    e, ln = find(f, lhs, nth)
    w('(** %s line %d: %s.%s *)' % (f, ln, lhs, note))
    w(wrap('Definition %s (q : par) : field := fun t x y z => %s%s.' % (name, pre, tr(e, ren))))
def vector(name, f, base, n=3, pre='', nths=None, ren=None, note=''):
    w('(** %s line %d: %s[0..%d].%s *)' % (f, find(f, base+'[0]', (nths or [0]*n)[0])[1], base, n-1, note))
    w('Definition %s (q : par) (i : nat) : field := fun t x y z => %smatch i with' % (name, pre))
    for i in range(n):
        e, _ = find(f, '%s[%d]' % (base, i), (nths or [0]*n)[i])
        w(wrap('  | %d%%nat => %s' % (i, tr(e, ren))))
    w('  | _ => 0 end%nat.' if False else '  | _ => 0 end.')
def consts(name, f, cls=None):
    s = src(f)
    if cls: s = s[s.index(cls + '::' + cls):]; s = s[:s.index('{')]
    else: s = s[:s.index('{', s.index('SupplementalAlgorithm(realm)' if 'SupplementalAlgorithm(realm)' in s else (': Kernel()' if ': Kernel()' in s else 'AuxFunction(')))]
    d = {}
    for a, b in re.findall(r'\b(\w+?_?)\((-?\d[\d.]*|(?:2\*)?(?:std::)?acos\(-1\.0?\)|2\.0/3\.0\*realm_\.get_divU\(\))\)', s):
        if a in FIELDS: d[a] = b
        elif a + '_' in FIELDS: d[a + '_'] = b
    w('(** constructor constants of %s%s; fields it does not have are 0 *)' % (f, ' (%s)' % cls if cls else ''))
    vals = []
    for k in FIELDS:
        v = d.get(k, '0')
        if v.startswith('2*'): v = '(2 * PI)'
        elif 'acos' in v: v = 'PI'
        elif 'get_divU' in v: v = '(2 / 3 * includeDivU)'
        else: v = P('').num(v)
        vals.append(v)
    arg = ' (includeDivU rhoRef gx gy gz : R)' if 'gx_' in d else ''
    if arg:
        for k, v in (('rhoRef_', 'rhoRef'), ('gx_', 'gx'), ('gy_', 'gy'), ('gz_', 'gz')): vals[FIELDS.index(k)] = v
    w(wrap('Definition %s%s : par := mkPar %s.' % (name, arg, ' '.join(vals))))

w('''(** Manufactured and exact solutions: the analytic fields and source terms of src/user_functions.
    GENERATED by tools/mms.py, which transcribes the C++ expressions token by token (every definition
    cites its file and line); only the record of constants and the names are added.

    Simplifications: doubles are reals, acos(-1) and M_PI are PI, pow(e,-2) is 1/(e*e) and pow(e,2) is
    e^2; each function is the value at one point (the C++ loops over points and advances the pointers). *)
From Coq Require Import Reals.
Open Scope R_scope.

(** value at time t and point (x,y,z) *)
Definition field := R -> R -> R -> R -> R.
Definition inv2 (e : R) : R := / (e * e).
(** the constants the classes hold as members (one record for all of them) *)''')
w(wrap('Record par := mkPar { %s : R }.' % ' : R; '.join(FIELDS), 150))
w('')
w('(* ---------------------------------------------------------------- variable density, isothermal *)')
vector('vd_velocity', 'VariableDensityVelocityAuxFunction.C', 'fieldPtr')
consts('vd_velocity_par', 'VariableDensityVelocityAuxFunction.C')
scalar('vd_pressure', 'VariableDensityPressureAuxFunction.C', 'fieldPtr[0]')
consts('vd_pressure_par', 'VariableDensityPressureAuxFunction.C')
scalar('vd_mixfrac', 'VariableDensityMixFracAuxFunction.C', 'fieldPtr[0]')
consts('vd_mixfrac_par', 'VariableDensityMixFracAuxFunction.C')
scalar('vd_continuity_node_src', 'VariableDensityContinuitySrcNodeSuppAlg.C', 'src')
consts('vd_continuity_node_par', 'VariableDensityContinuitySrcNodeSuppAlg.C')
scalar('vd_continuity_elem_src', 'VariableDensityContinuitySrcElemSuppAlg.C', 'src')
consts('vd_continuity_elem_par', 'VariableDensityContinuitySrcElemSuppAlg.C')
scalar('vd_mixfrac_node_src', 'VariableDensityMixFracSrcNodeSuppAlg.C', 'src')
consts('vd_mixfrac_node_par', 'VariableDensityMixFracSrcNodeSuppAlg.C')
scalar('vd_mixfrac_elem_src', 'VariableDensityMixFracSrcElemSuppAlg.C', 'src')
consts('vd_mixfrac_elem_par', 'VariableDensityMixFracSrcElemSuppAlg.C')
vector('vd_momentum_node_src', 'VariableDensityMomentumSrcNodeSuppAlg.C', 'srcXi_')
consts('vd_momentum_node_par', 'VariableDensityMomentumSrcNodeSuppAlg.C')
vector('vd_momentum_elem_src', 'VariableDensityMomentumSrcElemSuppAlg.C', 'srcXi_')
consts('vd_momentum_elem_par', 'VariableDensityMomentumSrcElemSuppAlg.C')
w('(* ---------------------------------------------------------------- variable density, non-isothermal *)')
scalar('vn_enthalpy', 'VariableDensityNonIsoTemperatureAuxFunction.C', 'h')
scalar('vn_temperature', 'VariableDensityNonIsoTemperatureAuxFunction.C', 'temp', ren={'h': 'vn_enthalpy q t x y z'})
consts('vn_temperature_par', 'VariableDensityNonIsoTemperatureAuxFunction.C')
scalar('vn_continuity_src', 'VariableDensityNonIsoContinuitySrcNodeSuppAlg.C', 'src')
consts('vn_continuity_par', 'VariableDensityNonIsoContinuitySrcNodeSuppAlg.C')
scalar('vn_enthalpy_src', 'VariableDensityNonIsoEnthalpySrcNodeSuppAlg.C', 'src')
consts('vn_enthalpy_par', 'VariableDensityNonIsoEnthalpySrcNodeSuppAlg.C')
vector('vn_momentum_src', 'VariableDensityNonIsoMomentumSrcNodeSuppAlg.C', 'srcXi_')
consts('vn_momentum_par', 'VariableDensityNonIsoMomentumSrcNodeSuppAlg.C')
w('(* ---------------------------------------------------------------- Boussinesq *)')
vector('bq_velocity', 'BoussinesqNonIsoVelocityAuxFunction.C', 'fieldPtr')
scalar('bq_enthalpy', 'BoussinesqNonIsoTemperatureAuxFunction.C', 'h')
scalar('bq_temperature', 'BoussinesqNonIsoTemperatureAuxFunction.C', 'temp', ren={'h': 'bq_enthalpy q t x y z'})
consts('bq_temperature_par', 'BoussinesqNonIsoTemperatureAuxFunction.C')
scalar('bq_enthalpy_src', 'BoussinesqNonIsoEnthalpySrcNodeSuppAlg.C', 'src')
vector('bq_momentum_src', 'BoussinesqNonIsoMomentumSrcNodeSuppAlg.C', 'srcXi', pre='let mu := visc_ q in ', note=' (the buoyancy of lines 93-99 is bq_buoyancy_src)')
consts('bq_momentum_par', 'BoussinesqNonIsoMomentumSrcNodeSuppAlg.C')
w('''(** BoussinesqNonIsoMomentumSrcNodeSuppAlg.C lines 93-99: fac*gravity[d] per unit volume with
    h = z, temperature = h/Cp + TRef, fac = rhoRef*beta*(temperature - TRef). *)
Definition bq_buoyancy_src (Cp rhoRef TRef beta : R) (g : nat -> R) (d : nat) : field := fun t x y z =>
  let h := z in let temperature := h / Cp + TRef in
  let fac := rhoRef * beta * (temperature - TRef) in fac * g d.''')
w('(* ---------------------------------------------------------------- steady Taylor vortex *)')
vector('tv_velocity', 'SteadyTaylorVortexVelocityAuxFunction.C', 'fieldPtr', 2)
consts('tv_velocity_par', 'SteadyTaylorVortexVelocityAuxFunction.C')
scalar('tv_pressure', 'SteadyTaylorVortexPressureAuxFunction.C', 'fieldPtr[0]')
consts('tv_pressure_par', 'SteadyTaylorVortexPressureAuxFunction.C')
vector('tv_gradp', 'SteadyTaylorVortexGradPressureAuxFunction.C', 'fieldPtr', 2)
consts('tv_gradp_par', 'SteadyTaylorVortexGradPressureAuxFunction.C')
scalar('tv_continuity_src', 'SteadyTaylorVortexContinuitySrcElemKernel.C', 'src')
consts('tv_continuity_par', 'SteadyTaylorVortexContinuitySrcElemKernel.C')
vector('tv_momentum_src', 'SteadyTaylorVortexMomentumSrcElemKernel.C', 'w_src')
consts('tv_momentum_par', 'SteadyTaylorVortexMomentumSrcElemKernel.C')
w('(* ---------------------------------------------------------------- convecting Taylor vortex *)')
om = 'let omega := pi_ q * pi_ q * visc_ q in '
vector('cv_velocity', 'ConvectingTaylorVortexVelocityAuxFunction.C', 'fieldPtr', 2, pre=om)
consts('cv_velocity_par', 'ConvectingTaylorVortexVelocityAuxFunction.C')
scalar('cv_pressure', 'ConvectingTaylorVortexPressureAuxFunction.C', 'fieldPtr[0]', pre=om)
consts('cv_pressure_par', 'ConvectingTaylorVortexPressureAuxFunction.C', 'ConvectingTaylorVortexPressureAuxFunction')
vector('cv_gradp', 'ConvectingTaylorVortexPressureAuxFunction.C', 'fieldPtr', 2, pre=om, nths=[1, 0])
consts('cv_gradp_par', 'ConvectingTaylorVortexPressureAuxFunction.C', 'ConvectingTaylorVortexPressureGradAuxFunction')
w('(* ---------------------------------------------------------------- Kovasznay flow *)')
lam = 'let pi := PI in let lam := 1 / 2 * Re_ q - sqrt (1 / 4 * Re_ q * Re_ q + 4 * pi * pi) in '
vector('kv_velocity', 'KovasznayVelocityAuxFunction.C', 'fieldPtr', 2, pre=lam)
consts('kv_velocity_par', 'KovasznayVelocityAuxFunction.C')
scalar('kv_pressure', 'KovasznayPressureAuxFunction.C', 'fieldPtr[0]', pre=lam)
consts('kv_pressure_par', 'KovasznayPressureAuxFunction.C', 'KovasznayPressureAuxFunction')
vector('kv_gradp', 'KovasznayPressureAuxFunction.C', 'fieldPtr', 2, pre=lam, nths=[1, 0])
consts('kv_gradp_par', 'KovasznayPressureAuxFunction.C', 'KovasznayPressureGradientAuxFunction')
w('(* ---------------------------------------------------------------- Taylor-Green vortex (initial state) *)')
vector('tg_velocity', 'TaylorGreenVelocityAuxFunction.C', 'fieldPtr', 3)
consts('tg_velocity_par', 'TaylorGreenVelocityAuxFunction.C')
scalar('tg_pressure', 'TaylorGreenPressureAuxFunction.C', 'fieldPtr[0]')
consts('tg_pressure_par', 'TaylorGreenPressureAuxFunction.C')
w('(* ---------------------------------------------------------------- steady heat conduction *)')
scalar('sc_temperature', 'SteadyThermalContactAuxFunction.C', 'fieldPtr[0]')
consts('sc_temperature_par', 'SteadyThermalContactAuxFunction.C')
dv = {'dualVolume': '1'}
scalar('sc_node_src', 'SteadyThermalContactSrcNodeSuppAlg.C', 'rhs[0]', ren=dv, note=' (per unit dual volume)')
consts('sc_node_par', 'SteadyThermalContactSrcNodeSuppAlg.C')
scalar('s3_temperature', 'SteadyThermal3dContactAuxFunction.C', 'fieldPtr[0]')
consts('s3_temperature_par', 'SteadyThermal3dContactAuxFunction.C')
vector('s3_gradient', 'SteadyThermal3dContactDtDxAuxFunction.C', 'fieldPtr', 3, pre='let fac := 2 * a_ q * pi_ q * k_ q / 4 in ')
consts('s3_gradient_par', 'SteadyThermal3dContactDtDxAuxFunction.C')
scalar('s3_node_src', 'SteadyThermalContact3DSrcNodeSuppAlg.C', 'rhs[0]', ren=dv, note=' (per unit dual volume)')
consts('s3_node_par', 'SteadyThermalContact3DSrcNodeSuppAlg.C')
sx = {'w_scvCoords[0]': 'x', 'w_scvCoords[1]': 'y', 'w_scvCoords[2]': 'z'}
scalar('s3_elem_src', 'SteadyThermal3dContactSrcElemKernel.C', 'rhs(nearestNode)', ren=sx, note=' (per unit sub-control volume, at its integration point)')
consts('s3_elem_par', 'SteadyThermal3dContactSrcElemKernel.C')
scalar('sc_elem_src', 'SteadyThermalContactSrcElemSuppAlg.C', 'rhs[nearestNode]', note=' (per unit sub-control volume, at its integration point)')
consts('sc_elem_par', 'SteadyThermalContactSrcElemSuppAlg.C')
open(OUT, 'w').write('\n'.join(out) + '\n')
