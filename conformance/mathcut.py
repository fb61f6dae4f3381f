from fractions import Fraction as F
import math
NAT=F(str(round(1/(2*math.e),12)))
