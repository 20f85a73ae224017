.nra.cache
.lia.cache
.lra.cache
.nia.cache
