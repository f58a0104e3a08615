*.vio
.*.aux
.lia.cache
.nia.cache
